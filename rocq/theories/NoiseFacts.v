(** Noised sweeps on disk refine noised sweeps in memory. *)
From Coq Require Import List Arith Lia Bool.
From Verif Require Import Base Disk SweepSpec DiskFacts TwoSite TwoSiteFacts VmpsInit NoiseSpec VmpsInitFacts Noise.
Import ListNotations.

Section Facts.
Variables T E St : Type.
Variables (dT : T) (dE : E) (triv : side -> E) (grow : side -> nat -> E -> T -> E).
Variables (canoL canoR : T -> T -> T * T).
Variables (bigL smallL bigR smallR : T -> bool) (combL combR : T -> T -> T * T).
Variable solve3 : bool -> nat -> E -> T -> T -> E -> T -> St -> T * T * T * St.
Variable preset : nat -> option St.
Variable carry : St -> St.
Variable solve2 : bool -> nat -> E -> T -> T -> E -> T * T * St.
Variable dbg : bool.
Notation world := (world T E St).
Notation exec := (exec T E St dT dE triv grow solve2 canoL canoR dbg).
Notation nexec := (nexec T E St dT dE triv grow canoL canoR solve3 preset carry solve2 dbg).
Notation nm := (nm T E St). Notation mm := (mm T E St). Notation ne := (ne T E St). Notation dm := (dm T E St).
Notation le := (le T E St). Notation re := (re T E St). Notation dl := (dl T E St). Notation dr := (dr T E St).
Notation eng := (eng T E St). Notation acc := (acc T E St). Notation tmp := (tmp T E St).
Notation le_ := (le_ T E St).
Variable N : nat.
Notation left_env := (left_env T E triv grow). Notation right_env := (right_env T E triv grow N).
Notation opt3 := (opt3 T E St triv grow solve3 N). Notation opts3 := (opts3 T E St triv grow solve3 N).
Notation sweeps3 := (sweeps3 T E St triv grow solve3 N preset carry).
Notation run_noise := (run_noise T E St dT dE triv grow canoL canoR bigL smallL bigR smallR combL combR solve3 preset carry solve2 dbg).
Notation prep := (prep T canoL canoR bigL smallL bigR smallR combL combR N).

Lemma nexec_app : forall p q w, nexec (p ++ q) w = bind (nexec p w) (nexec q).
Proof. induction p as [|c p IH]; intros; auto. cbn [Noise.nexec app]. destruct (nexec1 _ _ _ _ _ _ _ _ _ _ _ _ _ _ c w); cbn [bind]; auto. Qed.
Lemma nexec_B : forall p w, nexec (map B p) w = exec p w.
Proof. induction p as [|c p IH]; intros; auto. cbn [map Noise.nexec Disk.exec Noise.nexec1]. destruct (exec1 _ _ _ _ _ _ _ _ _ _ _ c w); cbn [bind]; auto. Qed.
Lemma nexec_Bs : forall p q w w', exec p w = Ok w' -> nexec (map B p ++ q) w = nexec q w'.
Proof. intros p q w w' H. rewrite nexec_app, nexec_B, H. auto. Qed.

Lemma nex_UpdR : forall l q w el er a b c a' b' c' s s', l + 2 < nm w -> l + 1 < ne w -> nm w - (l + 2) < ne w ->
  le w l = Some el -> re w (nm w - (l + 2)) = Some er -> mm w l = Some a -> mm w (l + 1) = Some b -> mm w (l + 2) = Some c -> eng w = Some s ->
  solve3 true l el a b er c s = (a', b', c', s') ->
  nexec (Upd3 true l (l + 2) :: q) w = nexec q (set_eng T E St (Some s') (set_e T E St L (fset (le w) (l + 1) (Some (grow L l el a')))
    (set_mm T E St (fset (fset (fset (mm w) (l + 2) (Some c')) l (Some a')) (l + 1) (Some b')) w))).
Proof.
  intros. cbn [Noise.nexec Noise.nexec1]. unfold getE, getM, putM, putE. destruct w as [nm_ mm_ ne_ le0 re0 acc_ eng_ dm_ dl_ dr_ tmp_]; simpl in *.
  rewrite !ltb_t by lia. rewrite H2, H3, H4, H5, H6, H7. simpl. rewrite H8. simpl. repeat (rewrite ltb_t by lia; simpl). reflexivity.
Qed.
Lemma nex_UpdL : forall l k q w el er a b c a' b' c' s s', k < nm w -> l + 1 < nm w -> l < ne w -> nm w - (l + 1) < ne w ->
  le w l = Some el -> re w (nm w - (l + 2)) = Some er -> mm w l = Some a -> mm w (l + 1) = Some b -> mm w k = Some c -> eng w = Some s ->
  solve3 false l el a b er c s = (a', b', c', s') ->
  nexec (Upd3 false l k :: q) w = nexec q (set_eng T E St (Some s') (set_e T E St R (fset (re w) (nm w - (l + 1)) (Some (grow R (l + 1) er b')))
    (set_mm T E St (fset (fset (fset (mm w) k (Some c')) l (Some a')) (l + 1) (Some b')) w))).
Proof.
  intros. cbn [Noise.nexec Noise.nexec1]. unfold getE, getM, putM, putE. destruct w as [nm_ mm_ ne_ le0 re0 acc_ eng_ dm_ dl_ dr_ tmp_]; simpl in *.
  rewrite !ltb_t by lia. rewrite H3, H4, H5, H6, H7, H8. simpl. rewrite H9. simpl. repeat (rewrite ltb_t by lia; simpl). reflexivity.
Qed.

Variables lb rb : nat.
Hypothesis Hlr : lb + 2 <= rb.
Hypothesis HrN : rb < N.

Record rpoint3 (ts : nat -> T) (i : nat) (w : world) : Prop := {
  r3_nm : nm w = N; r3_ne : N - 1 <= ne w;
  r3_mm : forall j, j < N -> mm w j = if (j =? i) || (j =? i + 1) then Some (ts j) else None;
  r3_dm : forall j, j < N -> j <> i -> j <> i + 1 -> dm w j = Some (ts j);
  r3_dr : forall n, N - 1 - rb <= n <= N - 2 - i -> dr w n = Some (right_env ts n);
  r3_dl : forall n, lb <= n <= i -> dl w n = Some (left_env ts n);
  r3_le : forall j, j < N -> le w j = if (j =? i) && (lb <? i) then Some (left_env ts i) else None;
  r3_re : forall j, j < N -> re w j = None }.
Record lpoint3 (ts : nat -> T) (i : nat) (w : world) : Prop := {
  l3_nm : nm w = N; l3_ne : N - 1 <= ne w;
  l3_mm : forall j, j < N -> mm w j = if (j =? i - 1) || (j =? i) then Some (ts j) else None;
  l3_dm : forall j, j < N -> j <> i - 1 -> j <> i -> dm w j = Some (ts j);
  l3_dr : forall n, N - 1 - rb <= n <= N - 1 - i -> dr w n = Some (right_env ts n);
  l3_dl : forall n, lb <= n <= i - 1 -> dl w n = Some (left_env ts n);
  l3_le : forall j, j < N -> le w j = if (j =? i - 1) && (i =? rb) then Some (left_env ts (rb - 1)) else None;
  l3_re : forall j, j < N -> re w j = if (j =? N - 1 - i) && (i <? rb) then Some (right_env ts (N - 1 - i)) else None }.

Lemma step_right3_ok : forall ts i w q s, lb <= i -> i < rb - 1 -> rpoint3 ts i w -> eng w = Some s -> exists w', nexec (step_right3 N lb i ++ q) w = nexec q w' /\
  rpoint3 (fst (opt3 (true, i) (ts, s))) (S i) w' /\ eng w' = Some (snd (opt3 (true, i) (ts, s))) /\ tmp w' = tmp w.
Proof.
  intros ts i w q s HL HI [P1 P2 P3 P4 P5 P6 P7 P8] HE.
  unfold NoiseSpec.opt3. destruct (solve3 true i (left_env ts i) (ts i) (ts (i + 1)) (right_env ts (N - (i + 2))) (ts (i + 2)) s) as [[[a b] c] x] eqn:ES. cbn [fst snd].
  unfold step_right3. rewrite <- !app_assoc.
  assert (LD : exists w1, exec (load_right3 N lb i) w = Ok w1 /\ nm w1 = N /\ N - 1 <= ne w1 /\
    mm w1 i = Some (ts i) /\ mm w1 (i + 1) = Some (ts (i + 1)) /\ mm w1 (i + 2) = Some (ts (i + 2)) /\ (forall j, j < N -> j <> i -> j <> i + 1 -> j <> i + 2 -> mm w1 j = None) /\
    dm w1 = dm w /\ dl w1 = dl w /\ (forall n, N - 1 - rb <= n < N - 2 - i -> dr w1 n = Some (right_env ts n)) /\
    le w1 i = Some (left_env ts i) /\ (forall j, j < N -> j <> i -> le w1 j = None) /\
    re w1 (N - (i + 2)) = Some (right_env ts (N - (i + 2))) /\ (forall j, j < N -> j <> N - (i + 2) -> re w1 j = None) /\ tmp w1 = tmp w /\ eng w1 = Some s).
  { assert (MI : mm w i = Some (ts i)) by (rewrite P3 by lia; rewrite Nat.eqb_refl; auto).
    assert (MI1 : mm w (i + 1) = Some (ts (i + 1))) by (rewrite P3 by lia; rewrite Nat.eqb_refl, orb_true_r; auto).
    assert (MO : forall j, j < N -> j <> i -> j <> i + 1 -> mm w j = None) by (intros j H1 H2 H3; rewrite P3 by lia; eqb_dec; auto).
    unfold load_right3. destruct (Nat.eqb_spec i lb) as [->|NZ].
    - rewrite (ex_LoadM _ _ _ _ _ _ _ _ _ _ _ _ _ _ (ts (lb + 2))); [|lia|apply P4; lia].
      replace (N - 1 - (lb + 1)) with (N - (lb + 2)) by lia.
      rewrite (ex_LoadE _ _ _ _ _ _ _ _ _ _ _ _ _ _ _ (right_env ts (N - (lb + 2)))); [|cbn; lia|fs; apply P5; lia].
      rewrite ex_RmE. rewrite (ex_LoadE _ _ _ _ _ _ _ _ _ _ _ _ _ _ _ (left_env ts lb)); [|cbn; lia|fs; apply P6; lia].
      eexists. split; [reflexivity|]. fs. repeat split; auto.
      + intros j H1 H2 H3 H4. fs. auto.
      + intros n Hn. fs. apply P5. lia.
      + intros j H1 H2. fs. rewrite P7 by lia. eqb_dec. auto.
      + intros j H1 H2. fs. auto.
    - rewrite (ex_LoadM _ _ _ _ _ _ _ _ _ _ _ _ _ _ (ts (i + 2))); [|lia|apply P4; lia].
      rewrite (ex_LoadE _ _ _ _ _ _ _ _ _ _ _ _ _ _ _ (right_env ts (N - (i + 2)))); [|cbn; lia|fs; apply P5; lia].
      rewrite ex_RmE. eexists. split; [reflexivity|]. fs. repeat split; auto.
      + intros j H1 H2 H3 H4. fs. auto.
      + intros n Hn. fs. apply P5. lia.
      + rewrite P7 by lia. eqb_dec. replace (lb <? i) with true by (symmetry; apply Nat.ltb_lt; lia). auto.
      + intros j H1 H2. rewrite P7 by lia. eqb_dec. auto.
      + intros j H1 H2. fs. auto. }
  destruct LD as [w1 [Q0 [Q1 [Q2 [Q3 [Q4 [Q4' [Q5 [Q6 [Q7 [Q8 [Q9 [Q10 [Q11 [Q12 [Q13 Q14]]]]]]]]]]]]]]]]. rewrite (nexec_Bs _ _ _ _ Q0). clear Q0.
  cbn [app]. rewrite (nex_UpdR i _ w1 (left_env ts i) (right_env ts (N - (i + 2))) (ts i) (ts (i + 1)) (ts (i + 2)) a b c s x); auto; try lia; [|rewrite Q1; auto].
  match goal with |- context [nexec _ ?v] => set (w2 := v) end.
  set (ts' := fset (fset (fset ts (i + 2) c) i a) (i + 1) b).
  assert (EL : forall n, n <= i -> left_env ts' n = left_env ts n) by (intros n Hn; apply left_env_ext; intros j Hj; unfold ts'; fs; auto).
  assert (ER : forall n, n < N - 2 - i -> right_env ts' n = right_env ts n) by (intros n Hn; apply right_env_ext; [lia|]; intros j Hj; unfold ts'; fs; auto).
  assert (EN : left_env ts' (S i) = grow L i (left_env ts i) a) by (cbn [SweepSpec.left_env]; rewrite EL by lia; f_equal; unfold ts'; fs; auto).
  assert (DM : exists w3, exec (dump_right N i) w2 = Ok w3 /\ rpoint3 ts' (S i) w3 /\ eng w3 = Some x /\ tmp w3 = tmp w).
  2: { destruct DM as [w3 [D1 D2]]. rewrite (nexec_Bs _ _ _ _ D1). exists w3. auto. }
  unfold dump_right. rewrite ex_FreeE; [|cbn; lia]. rewrite ex_FreeE; [|cbn; lia].
  rewrite (ex_DumpM _ _ _ _ _ _ _ _ _ _ _ _ _ _ _ a); [|cbn; lia|unfold w2; fs; auto].
  rewrite (ex_DumpE _ _ _ _ _ _ _ _ _ _ _ _ _ _ _ (grow L i (left_env ts i) a)); [|cbn; lia|unfold w2; fs; auto].
  unfold w2. eexists. split; [reflexivity|]. split; [|fs; auto]. constructor; fs; auto.
  - intros j Hj. replace (S i) with (i + 1) by lia. unfold ts'. fcase; subst; eqb_dec; auto; try lia.
  - intros j Hj HN1 HN2. unfold ts'. fcase; subst; auto; try lia. rewrite Q6. apply P4; lia.
  - intros n Hn. rewrite ER by lia. apply Q8. lia.
  - intros n Hn. fcase.
    + subst n. replace (i + 1) with (S i) by lia. rewrite EN. auto.
    + rewrite EL by lia. rewrite Q7. apply P6. lia.
  - intros j Hj. replace (lb <? S i) with true by (symmetry; apply Nat.ltb_lt; lia). rewrite andb_true_r. fcase; subst; eqb_dec; auto; try lia. rewrite EN. auto.
  - intros j Hj. fcase; auto.
Qed.
Lemma step_left3_ok : forall ts i w q s, lb + 1 < i -> i <= rb -> lpoint3 ts i w -> eng w = Some s -> exists w', nexec (step_left3 N rb i ++ q) w = nexec q w' /\
  lpoint3 (fst (opt3 (false, i - 1) (ts, s))) (i - 1) w' /\ eng w' = Some (snd (opt3 (false, i - 1) (ts, s))) /\ tmp w' = tmp w.
Proof.
  intros ts i w q s HL HI [P1 P2 P3 P4 P5 P6 P7 P8] HE.
  unfold NoiseSpec.opt3. replace (i - 1 + 1) with i by lia. replace (N - (i - 1 + 2)) with (N - 1 - i) by lia. replace (i - 1 - 1) with (i - 2) by lia.
  destruct (solve3 false (i - 1) (left_env ts (i - 1)) (ts (i - 1)) (ts i) (right_env ts (N - 1 - i)) (ts (i - 2)) s) as [[[a b] c] x] eqn:ES. cbn [fst snd].
  unfold step_left3. rewrite <- !app_assoc.
  assert (LD : exists w1, exec (load_left3 N rb i) w = Ok w1 /\ nm w1 = N /\ N - 1 <= ne w1 /\
    mm w1 (i - 1) = Some (ts (i - 1)) /\ mm w1 i = Some (ts i) /\ mm w1 (i - 2) = Some (ts (i - 2)) /\ (forall j, j < N -> j <> i - 1 -> j <> i -> j <> i - 2 -> mm w1 j = None) /\
    dm w1 = dm w /\ dr w1 = dr w /\ (forall n, lb <= n < i - 1 -> dl w1 n = Some (left_env ts n)) /\
    le w1 (i - 1) = Some (left_env ts (i - 1)) /\ (forall j, j < N -> j <> i - 1 -> le w1 j = None) /\
    re w1 (N - 1 - i) = Some (right_env ts (N - 1 - i)) /\ (forall j, j < N -> j <> N - 1 - i -> re w1 j = None) /\ tmp w1 = tmp w /\ eng w1 = Some s).
  { assert (MI : mm w (i - 1) = Some (ts (i - 1))) by (rewrite P3 by lia; rewrite Nat.eqb_refl; auto).
    assert (MI1 : mm w i = Some (ts i)) by (rewrite P3 by lia; rewrite Nat.eqb_refl, orb_true_r; auto).
    assert (MO : forall j, j < N -> j <> i - 1 -> j <> i -> mm w j = None) by (intros j H1 H2 H3; rewrite P3 by lia; eqb_dec; auto).
    unfold load_left3. destruct (Nat.eqb_spec i rb) as [EI|NI].
    - rewrite (ex_LoadM _ _ _ _ _ _ _ _ _ _ _ _ _ _ (ts (i - 2))); [|lia|apply P4; lia].
      rewrite (ex_LoadE _ _ _ _ _ _ _ _ _ _ _ _ _ _ _ (right_env ts (N - 1 - i))); [|cbn; lia|fs; apply P5; lia].
      rewrite ex_RmE. eexists. split; [reflexivity|]. fs. repeat split; auto.
      + intros j H1 H2 H3 H4. fs. auto.
      + intros n Hn. fs. apply P6. lia.
      + rewrite P7 by lia. eqb_dec. simpl. do 2 f_equal. lia.
      + intros j H1 H2. rewrite P7 by lia. eqb_dec. auto.
      + intros j H1 H2. fs. rewrite P8 by lia. eqb_dec. auto.
    - replace (i + 1 - 2) with (i - 1) by lia.
      rewrite (ex_LoadM _ _ _ _ _ _ _ _ _ _ _ _ _ _ (ts (i - 2))); [|lia|apply P4; lia].
      rewrite (ex_LoadE _ _ _ _ _ _ _ _ _ _ _ _ _ _ _ (left_env ts (i - 1))); [|cbn; lia|fs; apply P6; lia].
      rewrite ex_RmE. eexists. split; [reflexivity|]. fs. repeat split; auto.
      + intros j H1 H2 H3 H4. fs. auto.
      + intros n Hn. fs. apply P6. lia.
      + intros j H1 H2. fs. rewrite P7 by lia. eqb_dec. auto.
      + rewrite P8 by lia. eqb_dec. replace (i <? rb) with true by (symmetry; apply Nat.ltb_lt; lia). auto.
      + intros j H1 H2. rewrite P8 by lia. eqb_dec. auto. }
  destruct LD as [w1 [Q0 [Q1 [Q2 [Q3 [Q4 [Q4' [Q5 [Q6 [Q7 [Q8 [Q9 [Q10 [Q11 [Q12 [Q13 Q14]]]]]]]]]]]]]]]]. rewrite (nexec_Bs _ _ _ _ Q0). clear Q0.
  cbn [app]. rewrite (nex_UpdL (i - 1) (i - 2) _ w1 (left_env ts (i - 1)) (right_env ts (N - 1 - i)) (ts (i - 1)) (ts i) (ts (i - 2)) a b c s x); auto; try lia;
    [|rewrite Q1; replace (N - (i - 1 + 2)) with (N - 1 - i) by lia; auto|replace (i - 1 + 1) with i by lia; auto].
  replace (i - 1 + 1) with i by lia. rewrite Q1.
  match goal with |- context [nexec _ ?v] => set (w2 := v) end.
  set (ts' := fset (fset (fset ts (i - 2) c) (i - 1) a) i b).
  assert (EL : forall n, n < i - 1 -> left_env ts' n = left_env ts n) by (intros n Hn; apply left_env_ext; intros j Hj; unfold ts'; fs; auto).
  assert (ER : forall n, n <= N - 1 - i -> right_env ts' n = right_env ts n) by (intros n Hn; apply right_env_ext; [lia|]; intros j Hj; unfold ts'; fs; auto).
  assert (EN : right_env ts' (N - i) = grow R i (right_env ts (N - 1 - i)) b).
  { replace (N - i) with (S (N - 1 - i)) by lia. cbn [SweepSpec.right_env]. rewrite ER by lia. replace (N - 1 - (N - 1 - i)) with i by lia. f_equal. unfold ts'; fs; auto. }
  assert (RI : N - 1 - (i - 1) = N - i) by lia.
  assert (DM : exists w3, exec (dump_left N i) w2 = Ok w3 /\ lpoint3 ts' (i - 1) w3 /\ eng w3 = Some x /\ tmp w3 = tmp w).
  2: { destruct DM as [w3 [D1 D2]]. rewrite (nexec_Bs _ _ _ _ D1). exists w3. auto. }
  unfold dump_left. rewrite ex_FreeE; [|cbn; lia]. rewrite ex_FreeE; [|cbn; lia].
  rewrite (ex_DumpM _ _ _ _ _ _ _ _ _ _ _ _ _ _ _ b); [|cbn; lia|unfold w2; fs; auto].
  rewrite (ex_DumpE _ _ _ _ _ _ _ _ _ _ _ _ _ _ _ (grow R i (right_env ts (N - 1 - i)) b)); [|cbn; lia|unfold w2; fs; auto].
  unfold w2. eexists. split; [reflexivity|]. split; [|fs; auto]. constructor; fs; auto; rewrite ?RI.
  - intros j Hj. replace (i - 1 - 1) with (i - 2) by lia. unfold ts'. fcase; subst; eqb_dec; auto; try lia.
  - intros j Hj HN1 HN2. unfold ts'. fcase; subst; auto; try lia. rewrite Q6. apply P4; lia.
  - intros n Hn. fcase.
    + subst n. rewrite EN. auto.
    + rewrite ER by lia. rewrite Q7. apply P5. lia.
  - intros n Hn. rewrite EL by lia. apply Q8. lia.
  - intros j Hj. replace (i - 1 =? rb) with false by (symmetry; apply Nat.eqb_neq; lia). rewrite andb_false_r. fcase; auto; apply Q10; lia.
  - intros j Hj. replace (i - 1 <? rb) with true by (symmetry; apply Nat.ltb_lt; lia). rewrite andb_true_r. fcase; rewrite ?EN; auto; apply Q12; lia.
Qed.

Lemma rights3_ok : forall k i ts s w q, lb <= i -> i + k = rb - 1 -> rpoint3 ts i w -> eng w = Some s -> exists w', nexec (flat_map (step_right3 N lb) (seq i k) ++ q) w = nexec q w' /\
  rpoint3 (fst (opts3 (map (fun i => (true, i)) (seq i k)) (ts, s))) (rb - 1) w' /\ eng w' = Some (snd (opts3 (map (fun i => (true, i)) (seq i k)) (ts, s))) /\ tmp w' = tmp w.
Proof.
  induction k as [|k IH]; intros i ts s w q HL HK HP HE.
  - cbn. exists w. replace (rb - 1) with i by lia. auto.
  - cbn [seq flat_map map]. rewrite <- app_assoc. destruct (step_right3_ok ts i w (flat_map (step_right3 N lb) (seq (S i) k) ++ q) s) as [w1 [A1 [A2 [A3 A4]]]]; auto; [lia|].
    rewrite A1. assert (HK' : S i + k = rb - 1) by lia. destruct (IH (S i) _ _ w1 q ltac:(lia) HK' A2 A3) as [w2 [B1 [B2 [B3 B4]]]]. exists w2. rewrite B1. unfold NoiseSpec.opts3 in *. cbn [fold_left].
    rewrite <- surjective_pairing in B2, B3. split; [reflexivity|]. split; [exact B2|]. split; [exact B3|congruence].
Qed.
Lemma lefts3_ok : forall k i ts s w q, i = lb + 1 + k -> i <= rb -> lpoint3 ts i w -> eng w = Some s -> exists w', nexec (flat_map (step_left3 N rb) (rev (seq (lb + 2) k)) ++ q) w = nexec q w' /\
  lpoint3 (fst (opts3 (map (fun i => (false, i - 1)) (rev (seq (lb + 2) k))) (ts, s))) (lb + 1) w' /\ eng w' = Some (snd (opts3 (map (fun i => (false, i - 1)) (rev (seq (lb + 2) k))) (ts, s))) /\ tmp w' = tmp w.
Proof.
  induction k as [|k IH]; intros i ts s w q HK HN HP HE.
  - cbn. exists w. replace (lb + 1) with i by lia. auto.
  - rewrite seq_S, rev_unit. cbn [flat_map map]. rewrite <- app_assoc. replace (lb + 2 + k) with i by lia.
    destruct (step_left3_ok ts i w (flat_map (step_left3 N rb) (rev (seq (lb + 2) k)) ++ q) s) as [w1 [A1 [A2 [A3 A4]]]]; auto; [lia|].
    rewrite A1. assert (HK' : i - 1 = lb + 1 + k) by lia. assert (HN' : i - 1 <= rb) by lia. destruct (IH (i - 1) _ _ w1 q HK' HN' A2 A3) as [w2 [B1 [B2 [B3 B4]]]]. exists w2. rewrite B1. unfold NoiseSpec.opts3 in *. cbn [fold_left].
    rewrite <- surjective_pairing in B2, B3. split; [reflexivity|]. split; [exact B2|]. split; [exact B3|congruence].
Qed.
(** between sweeps: exactly left and left+1 in memory *)
Record spoint3 (ts : nat -> T) (w : world) : Prop := {
  s3_nm : nm w = N;
  s3_mm : forall j, j < N -> mm w j = if (j =? lb) || (j =? lb + 1) then Some (ts j) else None;
  s3_dm : forall j, j < N -> j <> lb -> j <> lb + 1 -> dm w j = Some (ts j);
  s3_dr : forall n, N - 1 - rb <= n <= N - 2 - lb -> dr w n = Some (right_env ts n);
  s3_dl : dl w lb = Some (left_env ts lb) }.
Definition start (k : nat) (s : option St) : option St := match preset k with Some x => Some x | None => option_map carry s end.
Lemma sweep3e_ok : forall n k ts x w q, N - 1 <= n -> spoint3 ts w -> start k (eng w) = Some x -> exists w', nexec (sweep3e n N lb rb k ++ q) w = nexec q w' /\
  spoint3 (fst (opts3 (bonds lb rb) (ts, x))) w' /\ eng w' = Some (snd (opts3 (bonds lb rb) (ts, x))) /\ tmp w' = tmp w.
Proof.
  intros n k ts x w q HN [S1 S2 S3 S4 S5] HE. unfold sweep3e. rewrite <- !app_assoc. cbn [app].
  unfold start in HE. cbn [Noise.nexec Noise.nexec1 bind exec1]. rewrite HE. match goal with |- exists w', nexec _ ?x = _ /\ _ => set (w0 := x) end.
  unfold bonds. replace (rb - (lb + 1)) with (rb - 1 - lb) by lia.
  destruct (rights3_ok (rb - 1 - lb) lb ts x w0 (flat_map (step_left3 N rb) (rev (seq (lb + 2) (rb - 1 - lb))) ++ q)) as [w1 [A1 [A2 [A3 A4]]]]; auto; try lia.
  { unfold w0. constructor; fs; auto; try lia.
    - intros n0 Hn. replace n0 with lb by lia. auto.
    - intros j Hj. rewrite Nat.ltb_irrefl, andb_false_r. auto. }
  rewrite A1. unfold NoiseSpec.opts3 in *. rewrite fold_left_app.
  destruct (fold_left (fun s b => opt3 b s) (map (fun i => (true, i)) (seq lb (rb - 1 - lb))) (ts, x)) as [ts1 e1]. cbn [fst snd] in *.
  destruct A2 as [P1 P2 P3 P4 P5 P6 P7 P8].
  destruct (lefts3_ok (rb - 1 - lb) rb ts1 e1 w1 q) as [w2 [B1 [B2 [B3 B4]]]]; auto; [lia| |].
  { constructor; auto; rewrite ?Nat.eqb_refl; auto.
    - intros j Hj. rewrite P3 by auto. replace (rb - 1 + 1) with rb by lia. auto.
    - intros j Hj H1 H2. apply P4; lia.
    - intros n0 Hn. apply P5. lia.
    - intros j Hj. rewrite P7 by auto. replace (lb <? rb - 1) with true by (symmetry; apply Nat.ltb_lt; lia). auto.
    - intros j Hj. rewrite Nat.ltb_irrefl, andb_false_r. auto. }
  exists w2. rewrite B1. destruct B2 as [L1 L2 L3 L4 L5 L6 L7 L8]. unfold NoiseSpec.opts3 in *. split; [reflexivity|]. split; [|split; [exact B3|rewrite B4, A4; reflexivity]]. constructor; auto.
  - intros j Hj. rewrite L3 by auto. replace (lb + 1 - 1) with lb by lia. auto.
  - intros j Hj H1 H2. apply L4; lia.
  - intros n0 Hn. apply L5. lia.
  - apply L6. lia.
Qed.
Lemma sweep3_ok : forall k ts x w q, spoint3 ts w -> start k (eng w) = Some x -> exists w', nexec (sweep3 N lb rb k ++ q) w = nexec q w' /\
  spoint3 (fst (opts3 (bonds lb rb) (ts, x))) w' /\ eng w' = Some (snd (opts3 (bonds lb rb) (ts, x))) /\ tmp w' = tmp w.
Proof. intros. apply sweep3e_ok; auto. lia. Qed.
Lemma sweeps3_ok : forall n k ts w q, spoint3 ts w -> (preset k <> None \/ eng w <> None) -> exists w', nexec (flat_map (sweep3 N lb rb) (seq k n) ++ q) w = nexec q w' /\
  spoint3 (fst (sweeps3 lb rb n k (ts, eng w))) w' /\ eng w' = snd (sweeps3 lb rb n k (ts, eng w)) /\ (n <> 0 -> eng w' <> None) /\ tmp w' = tmp w.
Proof.
  induction n as [|n IH]; intros k ts w q HS HE.
  - exists w. split; [reflexivity|]. split; [exact HS|]. split; [reflexivity|]. split; [intros; lia|reflexivity].
  - cbn [seq flat_map NoiseSpec.sweeps3 fst snd]. rewrite <- app_assoc. fold (start k (eng w)).
    destruct (start k (eng w)) as [x|] eqn:EX.
    + destruct (sweep3_ok k ts x w (flat_map (sweep3 N lb rb) (seq (S k) n) ++ q) HS EX) as [w1 [A1 [A2 [A3 A4]]]]. rewrite A1.
      destruct (IH (S k) _ w1 q A2) as [w2 [B1 [B2 [B3 [B4 B5]]]]]; [right; rewrite A3; discriminate|].
      exists w2. rewrite B1. rewrite A3 in B2, B3. split; auto. split; auto. split; auto. split; [|congruence].
      intros _. destruct n; [|apply B4; discriminate]. rewrite B3. cbn. discriminate.
    + exfalso. unfold start in EX. destruct (preset k); [discriminate|]. destruct (eng w); [discriminate|]. destruct HE; congruence.
Qed.
(** the state before the run, and the whole run between given boundaries *)
Record ready3 (ts : nat -> T) (w : world) : Prop := {
  d3_nm : nm w = N; d3_me : mem_empty T E St N w; d3_od : on_disk T E St N ts w;
  d3_dr : forall n, N - 1 - rb <= n <= N - 2 - lb -> dr w n = Some (right_env ts n);
  d3_dl : dl w lb = Some (left_env ts lb) }.
Lemma noise_prog_ok : forall sweeps ts w, ready3 ts w -> preset 0 <> None -> exists ts' s w',
  sweeps3 lb rb (S sweeps) 0 (ts, None) = (ts', Some s) /\
  nexec (noise_prog N lb rb (S sweeps)) (set_eng T E St None w) = Ok w' /\ eng w' = Some s /\
  nm w' = N /\ mem_empty T E St N w' /\ on_disk T E St N (set2 T ts' lb (canoL (ts' lb) (ts' (lb + 1)))) w' /\ tmp w' = tmp w /\
  (forall n, N - 1 - rb <= n <= N - 2 - lb -> dr w' n = Some (right_env ts' n)) /\ dl w' lb = Some (left_env ts' lb).
Proof.
  intros sweeps ts w [D1 D2 D3 D4 D5] HP. unfold noise_prog.
  change [B (LoadM lb); B (LoadM (lb + 1))] with (map B [LoadM lb; LoadM (lb + 1)]).
  change [B (CanoL lb); B (DumpM lb true); B (DumpM (lb + 1) true)] with (map B [CanoL lb; DumpM lb true; DumpM (lb + 1) true]).
  assert (LD : exists w1, exec [LoadM lb; LoadM (lb + 1)] (set_eng T E St None w) = Ok w1 /\ spoint3 ts w1 /\ eng w1 = None /\ tmp w1 = tmp w).
  { rewrite (ex_LoadM _ _ _ _ _ _ _ _ _ _ _ _ _ _ (ts lb)); [|cbn; lia|apply D3; lia].
    rewrite (ex_LoadM _ _ _ _ _ _ _ _ _ _ _ _ _ _ (ts (lb + 1))); [|cbn; lia|apply D3; lia].
    eexists. split; [reflexivity|]. split; [|auto]. constructor; fs; auto.
    intros j Hj. fcase; subst; eqb_dec; auto. }
  destruct LD as [w1 [A1 [A2 [A3 A4]]]]. rewrite (nexec_Bs _ _ _ _ A1).
  destruct (sweeps3_ok (S sweeps) 0 ts w1 (map B [CanoL lb; DumpM lb true; DumpM (lb + 1) true]) A2 (or_introl HP)) as [w2 [B1 [B2 [B3 [B4 B5]]]]].
  rewrite A3 in B2, B3. destruct (sweeps3 lb rb (S sweeps) 0 (ts, None)) as [ts' so] eqn:ESW. cbn [fst snd] in *. destruct so as [s|]; [|exfalso; apply B4; auto].
  exists ts', s. rewrite B1, nexec_B. destruct B2 as [S1 S2 S3 S4 S5].
  rewrite (ex_CanoL _ _ _ _ _ _ _ _ _ _ _ _ _ _ (ts' lb) (ts' (lb + 1))); [|lia|rewrite S2 by lia; rewrite Nat.eqb_refl; auto|rewrite S2 by lia; rewrite Nat.eqb_refl, orb_true_r; auto].
  set (ab := canoL (ts' lb) (ts' (lb + 1))).
  rewrite (ex_DumpM _ _ _ _ _ _ _ _ _ _ _ _ _ _ _ (fst ab)); [|cbn; lia|fs; auto].
  rewrite (ex_DumpM _ _ _ _ _ _ _ _ _ _ _ _ _ _ _ (snd ab)); [|cbn; lia|fs; auto].
  eexists. split; auto. split; [reflexivity|]. cbn. split; auto. split; auto. split.
  { intros j Hj. fcase; auto. rewrite S2 by auto. eqb_dec. auto. }
  split; [|split; [congruence|auto]]. intros j Hj. cbn. unfold set2. fcase; auto.
Qed.
End Facts.

Section Run.
Variables T E St : Type.
Variables (dT : T) (dE : E) (triv : side -> E) (grow : side -> nat -> E -> T -> E).
Variables (canoL canoR : T -> T -> T * T).
Variables (bigL smallL bigR smallR : T -> bool) (combL combR : T -> T -> T * T).
Variable solve3 : bool -> nat -> E -> T -> T -> E -> T -> St -> T * T * T * St.
Variable preset : nat -> option St.
Variable carry : St -> St.
Variable solve2 : bool -> nat -> E -> T -> T -> E -> T * T * St.
Variable dbg : bool.
Notation world := (world T E St).
Notation exec := (exec T E St dT dE triv grow solve2 canoL canoR dbg).
Notation nexec := (nexec T E St dT dE triv grow canoL canoR solve3 preset carry solve2 dbg).
Notation nm := (nm T E St). Notation mm := (mm T E St). Notation dm := (dm T E St). Notation dl := (dl T E St). Notation dr := (dr T E St).
Notation eng := (eng T E St). Notation tmp := (tmp T E St).
Notation run_noise := (run_noise T E St dT dE triv grow canoL canoR bigL smallL bigR smallR combL combR solve3 preset carry solve2 dbg).
Variable N : nat.
Notation left_env := (left_env T E triv grow). Notation right_env := (right_env T E triv grow N).
Notation sweeps3 := (sweeps3 T E St triv grow solve3 N preset carry).
Notation prep := (prep T canoL canoR bigL smallL bigR smallR combL combR N).

(** the environments the run finds on disk and does not write are those of the prepared tensors *)
Definition envs_fresh (ts' : nat -> T) (lb rb : nat) (w : world) : Prop :=
  tmp w = true -> (forall m, N - 1 - rb <= m <= N - 2 - lb -> dr w m <> None) -> forall n, N - rb < n <= N - 2 - lb -> dr w n = Some (right_env ts' n).

Theorem run_noise_ok : forall sweeps ts w lb rb ts1, 3 <= N -> nm w = N -> mem_empty T E St N w -> on_disk T E St N ts w -> preset 0 <> None ->
  prep ts = (lb, rb, ts1) -> envs_fresh ts1 lb rb w ->
  exists ts2 s w', sweeps3 lb rb (S sweeps) 0 (ts1, None) = (ts2, Some s) /\ run_noise false (S sweeps) w = Ok (s, w') /\
    nm w' = N /\ mem_empty T E St N w' /\ on_disk T E St N (set2 T ts2 lb (canoL (ts2 lb) (ts2 (lb + 1)))) w'.
Proof.
  intros sweeps ts w lb rb ts1 HN W1 W2 W3 HP EP HF.
  destruct (vmps_init_ok T E St dT dE triv grow solve2 canoL canoR bigL smallL bigR smallR combL combR dbg N ts w HN W1 W2 W3) as [lb' [rb' [ts' [w' [V1 [V2 [V3 [V4 [V5 [V6 [V7 [V8 V9]]]]]]]]]]]].
  rewrite V1 in EP. injection EP as -> -> ->.
  pose proof (prep_range T canoL canoR bigL smallL bigR smallR combL combR N _ _ _ _ HN V1) as [R1 R2]. destruct (half_bounds N HN) as [B1 [B2 [B3 B4]]].
  assert (LR : lb + 2 <= rb).
  { unfold half in R1, B2. destruct (Nat.even N); lia. }
  unfold Noise.run_noise. cbn [bind]. rewrite V2. cbn [bind]. rewrite V3.
  destruct (noise_prog_ok T E St dT dE triv grow canoL canoR solve3 preset carry solve2 dbg N lb rb LR ltac:(lia) sweeps ts1 w') as [ts2 [s [w2 [A1 [A2 [A3 [A4 [A5 [A6 _]]]]]]]]]; auto.
  { constructor; auto. intros n Hn.
    destruct (Nat.le_gt_cases n (N - rb)) as [L|G]; [apply V8; auto|].
    destruct (tmp w) eqn:ET; [|apply V8; auto].
    assert (D : (forall m, N - 1 - rb <= m <= N - 2 - lb -> dr w m <> None) \/ (exists m, N - 1 - rb <= m <= N - 2 - lb /\ dr w m = None)).
    { clear - E. assert (X : forall k, (forall m, N - 1 - rb <= m <= N - 2 - lb -> m < k -> dr w m <> None) \/ (exists m, N - 1 - rb <= m <= N - 2 - lb /\ dr w m = None)).
      { induction k as [|k [IH|IH]]; [left; intros; lia| |right; exact IH].
        destruct (dr w k) eqn:EK.
        - left. intros m Hm Hk. destruct (Nat.eq_dec m k) as [->|]; [congruence|apply IH; auto; lia].
        - destruct (Nat.le_gt_cases (N - 1 - rb) k); [|left; intros m Hm Hk; apply IH; auto; lia].
          destruct (Nat.le_gt_cases k (N - 2 - lb)); [right; exists k; auto|left; intros m Hm Hk; apply IH; auto; lia]. }
      destruct (X (S (N - 2 - lb))) as [X1|X1]; [left; intros m Hm; apply X1; auto; lia|right; exact X1]. }
    destruct D as [D|D]; [|apply V8; auto]. assert (Hn2 : N - rb < n <= N - 2 - lb) by lia. rewrite V9; auto. }
  exists ts2, s, w2. rewrite A2. cbn [bind]. rewrite A3. cbn [use bind]. auto.
Qed.
End Run.
