(** Single-site sweeps on disk refine single-site sweeps in memory. *)
From Coq Require Import List Arith Lia Bool.
From Verif Require Import Base Disk SweepSpec DiskFacts TwoSite TwoSiteFacts SingleSite SingleSpec.
Import ListNotations.

Section Facts.
Variables T E St : Type.
Variables (dT : T) (dE : E) (triv : side -> E) (grow : side -> nat -> E -> T -> E).
Variables (canoL canoR : T -> T -> T * T).
Variable solve1 : bool -> nat -> E -> T -> E -> T -> St -> T * T * St.
Variable noises : list St.
Variable zero : St.
Variable carry : St -> St.
Variable solve2 : bool -> nat -> E -> T -> T -> E -> T * T * St.
Variable dbg : bool.
Notation world := (world T E St).
Notation exec := (exec T E St dT dE triv grow solve2 canoL canoR dbg).
Notation sexec := (sexec T E St dT dE triv grow canoL canoR solve1 noises zero carry solve2 dbg).
Notation sexec1 := (sexec1 T E St dT dE triv grow canoL canoR solve1 noises zero carry solve2 dbg).
Notation nm := (nm T E St). Notation mm := (mm T E St). Notation ne := (ne T E St). Notation dm := (dm T E St).
Notation le := (le T E St). Notation re := (re T E St). Notation dl := (dl T E St). Notation dr := (dr T E St).
Notation eng := (eng T E St). Notation acc := (acc T E St). Notation tmp := (tmp T E St).
Variable N : nat.
Notation left_env := (left_env T E triv grow). Notation right_env := (right_env T E triv grow N).
Notation opt1 := (opt1 T E St triv grow solve1 N). Notation opts1 := (opts1 T E St triv grow solve1 N).
Notation preset1 := (preset1 St noises zero).
Notation sweeps1 := (sweeps1 T E St triv grow solve1 N preset1 carry).
Notation begin1 := (begin1 St preset1 carry).

Lemma sexec_app : forall p q w, sexec (p ++ q) w = bind (sexec p w) (sexec q).
Proof. induction p as [|c p IH]; intros; auto. cbn [SingleSite.sexec app]. destruct (sexec1 c w); cbn [bind]; auto. Qed.
Lemma sexec_app_ok : forall p q w w', sexec p w = Ok w' -> sexec (p ++ q) w = sexec q w'.
Proof. intros p q w w' H. rewrite sexec_app, H. auto. Qed.
Lemma sexec_B : forall p w, sexec (map B1 p) w = exec p w.
Proof. induction p as [|c p IH]; intros; auto. cbn [map SingleSite.sexec Disk.exec SingleSite.sexec1]. destruct (exec1 _ _ _ _ _ _ _ _ _ _ _ c w); cbn [bind]; auto. Qed.
Lemma sexec_Bs : forall p q w w', exec p w = Ok w' -> sexec (map B1 p ++ q) w = sexec q w'.
Proof. intros p q w w' H. rewrite sexec_app, sexec_B, H. auto. Qed.

Lemma sex_U1R : forall i q w el er a b a' b' s s', i + 1 < nm w -> i + 1 < ne w -> nm w - i - 1 < ne w ->
  le w i = Some el -> re w (nm w - i - 1) = Some er -> mm w i = Some a -> mm w (i + 1) = Some b -> eng w = Some s ->
  solve1 true i el a er b s = (a', b', s') ->
  sexec (U1 true i (i + 1) :: q) w = sexec q (set_eng T E St (Some s') (set_e T E St L (fset (le w) (i + 1) (Some (grow L i el a')))
    (set_mm T E St (fset (fset (mm w) i (Some a')) (i + 1) (Some b')) w))).
Proof.
  intros. cbn [SingleSite.sexec SingleSite.sexec1]. unfold getE, getM, putM, putE. destruct w as [nm_ mm_ ne_ le0 re0 acc_ eng_ dm_ dl_ dr_ tmp_]; simpl in *.
  rewrite !ltb_t by lia. rewrite H2, H3, H4, H5, H6. simpl. rewrite H7. simpl. repeat (rewrite ltb_t by lia; simpl). reflexivity.
Qed.
Lemma sex_U1L : forall i q w el er a b a' b' s s', i < nm w -> 0 < i -> i < ne w -> nm w - i < ne w ->
  le w i = Some el -> re w (nm w - i - 1) = Some er -> mm w i = Some a -> mm w (i - 1) = Some b -> eng w = Some s ->
  solve1 false i el a er b s = (a', b', s') ->
  sexec (U1 false i (i - 1) :: q) w = sexec q (set_eng T E St (Some s') (set_e T E St R (fset (re w) (nm w - i) (Some (grow R i er a')))
    (set_mm T E St (fset (fset (mm w) i (Some a')) (i - 1) (Some b')) w))).
Proof.
  intros. cbn [SingleSite.sexec SingleSite.sexec1]. unfold getE, getM, putM, putE. destruct w as [nm_ mm_ ne_ le0 re0 acc_ eng_ dm_ dl_ dr_ tmp_]; simpl in *.
  rewrite !ltb_t by lia. rewrite H3, H4, H5, H6, H7. simpl. rewrite H8. simpl. repeat (rewrite ltb_t by lia; simpl). replace (nm_ - i - 1 + 1) with (nm_ - i) by lia. reflexivity.
Qed.

Record rpoint1 (ts : nat -> T) (i : nat) (w : world) : Prop := {
  r1_nm : nm w = N; r1_ne : ne w = N;
  r1_mm : forall j, j < N -> mm w j = if j =? i then Some (ts j) else None;
  r1_dm : forall j, j < N -> j <> i -> dm w j = Some (ts j);
  r1_dr : forall n, n <= N - 1 - i -> dr w n = Some (right_env ts n);
  r1_dl : forall n, n <= i -> dl w n = Some (left_env ts n);
  r1_le : forall j, j < N -> le w j = if (j =? i) && (0 <? i) then Some (left_env ts i) else None;
  r1_re : forall j, j < N -> re w j = None }.
Record lpoint1 (ts : nat -> T) (i : nat) (w : world) : Prop := {
  l1_nm : nm w = N; l1_ne : ne w = N;
  l1_mm : forall j, j < N -> mm w j = if j =? i then Some (ts j) else None;
  l1_dm : forall j, j < N -> j <> i -> dm w j = Some (ts j);
  l1_dr : forall n, n <= N - 1 - i -> dr w n = Some (right_env ts n);
  l1_dl : forall n, n <= i -> dl w n = Some (left_env ts n);
  l1_le : forall j, j < N -> le w j = if (j =? i) && (i =? N - 1) then Some (left_env ts i) else None;
  l1_re : forall j, j < N -> re w j = if (j =? N - 1 - i) && (i <? N - 1) then Some (right_env ts (N - 1 - i)) else None }.

Lemma step_right1_ok : forall ts i w q s, i + 1 < N -> rpoint1 ts i w -> eng w = Some s -> exists w', sexec (step_right1 N i ++ q) w = sexec q w' /\
  rpoint1 (fst (opt1 (true, i) (ts, s))) (S i) w' /\ eng w' = Some (snd (opt1 (true, i) (ts, s))) /\ tmp w' = tmp w.
Proof.
  intros ts i w q s HI [P1 P2 P3 P4 P5 P6 P7 P8] HE. unfold SingleSpec.opt1.
  destruct (solve1 true i (left_env ts i) (ts i) (right_env ts (N - 1 - i)) (ts (i + 1)) s) as [[a b] x] eqn:ES. cbn [fst snd].
  unfold step_right1. rewrite <- !app_assoc.
  assert (LD : exists w1, exec (load_right1 N i) w = Ok w1 /\ nm w1 = N /\ ne w1 = N /\
    mm w1 i = Some (ts i) /\ mm w1 (i + 1) = Some (ts (i + 1)) /\ (forall j, j < N -> j <> i -> j <> i + 1 -> mm w1 j = None) /\
    dm w1 = dm w /\ dl w1 = dl w /\ (forall n, n < N - 1 - i -> dr w1 n = Some (right_env ts n)) /\
    le w1 i = Some (left_env ts i) /\ (forall j, j < N -> j <> i -> le w1 j = None) /\
    re w1 (N - i - 1) = Some (right_env ts (N - 1 - i)) /\ (forall j, j < N -> j <> N - i - 1 -> re w1 j = None) /\ tmp w1 = tmp w /\ eng w1 = Some s).
  { assert (MI : mm w i = Some (ts i)) by (rewrite P3 by lia; rewrite Nat.eqb_refl; auto).
    assert (MO : forall j, j < N -> j <> i -> mm w j = None) by (intros j H1 H2; rewrite P3 by lia; eqb_dec; auto).
    replace (N - 1 - i) with (N - i - 1) in * by lia.
    unfold load_right1. destruct (Nat.eqb_spec i 0) as [->|NZ].
    - rewrite (ex_LoadM _ _ _ _ _ _ _ _ _ _ _ _ _ _ (ts (0 + 1))); [|lia|apply P4; lia].
      rewrite (ex_LoadE _ _ _ _ _ _ _ _ _ _ _ _ _ _ _ (right_env ts (N - 0 - 1))); [|cbn; lia|fs; apply P5; lia].
      rewrite ex_RmE. rewrite (ex_LoadE _ _ _ _ _ _ _ _ _ _ _ _ _ _ _ (left_env ts 0)); [|cbn; lia|fs; apply P6; lia].
      eexists. split; [reflexivity|]. fs. repeat split; auto.
      + intros j H1 H2 H3. fs. auto.
      + intros n Hn. fs. apply P5. lia.
      + intros j H1 H2. fs. rewrite P7 by lia. eqb_dec. auto.
      + intros j H1 H2. fs. auto.
    - rewrite (ex_LoadM _ _ _ _ _ _ _ _ _ _ _ _ _ _ (ts (i + 1))); [|lia|apply P4; lia].
      rewrite (ex_LoadE _ _ _ _ _ _ _ _ _ _ _ _ _ _ _ (right_env ts (N - i - 1))); [|cbn; lia|fs; apply P5; lia].
      rewrite ex_RmE. eexists. split; [reflexivity|]. fs. repeat split; auto.
      + intros j H1 H2 H3. fs. auto.
      + intros n Hn. fs. apply P5. lia.
      + rewrite P7 by lia. eqb_dec. replace (0 <? i) with true by (symmetry; apply Nat.ltb_lt; lia). auto.
      + intros j H1 H2. rewrite P7 by lia. eqb_dec. auto.
      + intros j H1 H2. fs. auto. }
  destruct LD as [w1 [Q0 [Q1 [Q2 [Q3 [Q4 [Q5 [Q6 [Q7 [Q8 [Q9 [Q10 [Q11 [Q12 [Q13 Q14]]]]]]]]]]]]]]]. rewrite (sexec_Bs _ _ _ _ Q0). clear Q0.
  cbn [app]. rewrite (sex_U1R i _ w1 (left_env ts i) (right_env ts (N - 1 - i)) (ts i) (ts (i + 1)) a b s x); auto; try lia; [|rewrite Q1; auto].
  match goal with |- context [sexec _ ?v] => set (w2 := v) end.
  set (ts' := fset (fset ts i a) (i + 1) b).
  assert (EL : forall n, n <= i -> left_env ts' n = left_env ts n) by (intros n Hn; apply left_env_ext; intros j Hj; unfold ts'; fs; auto).
  assert (ER : forall n, n < N - 1 - i -> right_env ts' n = right_env ts n) by (intros n Hn; apply right_env_ext; [lia|]; intros j Hj; unfold ts'; fs; auto).
  assert (EN : left_env ts' (S i) = grow L i (left_env ts i) a) by (cbn [SweepSpec.left_env]; rewrite EL by lia; f_equal; unfold ts'; fs; auto).
  assert (DM : exists w3, exec (dump_right1 N i) w2 = Ok w3 /\ rpoint1 ts' (S i) w3 /\ eng w3 = Some x /\ tmp w3 = tmp w).
  2: { destruct DM as [w3 [D1 D2]]. rewrite (sexec_Bs _ _ _ _ D1). exists w3. auto. }
  unfold dump_right1. rewrite ex_FreeE; [|cbn; lia]. rewrite ex_FreeE; [|cbn; lia].
  rewrite (ex_DumpM _ _ _ _ _ _ _ _ _ _ _ _ _ _ _ a); [|cbn; lia|unfold w2; fs; auto].
  rewrite (ex_DumpE _ _ _ _ _ _ _ _ _ _ _ _ _ _ _ (grow L i (left_env ts i) a)); [|cbn; lia|unfold w2; fs; auto].
  unfold w2. eexists. split; [reflexivity|]. split; [|fs; auto]. constructor; fs; auto.
  - intros j Hj. replace (S i) with (i + 1) by lia. unfold ts'. fcase; subst; eqb_dec; auto; try lia.
  - intros j Hj HN1. unfold ts'. fcase; subst; auto; try lia. rewrite Q6. apply P4; lia.
  - intros n Hn. rewrite ER by lia. apply Q8. lia.
  - intros n Hn. fcase.
    + subst n. replace (i + 1) with (S i) by lia. rewrite EN. auto.
    + rewrite EL by lia. rewrite Q7. apply P6. lia.
  - intros j Hj. replace (0 <? S i) with true by reflexivity. rewrite andb_true_r. fcase; subst; eqb_dec; auto; try lia. rewrite EN. auto.
  - intros j Hj. fcase; auto.
Qed.
Lemma step_left1_ok : forall ts i w q s, 0 < i -> i < N -> lpoint1 ts i w -> eng w = Some s -> exists w', sexec (step_left1 N i ++ q) w = sexec q w' /\
  lpoint1 (fst (opt1 (false, i) (ts, s))) (i - 1) w' /\ eng w' = Some (snd (opt1 (false, i) (ts, s))) /\ tmp w' = tmp w.
Proof.
  intros ts i w q s HL HI [P1 P2 P3 P4 P5 P6 P7 P8] HE. unfold SingleSpec.opt1.
  destruct (solve1 false i (left_env ts i) (ts i) (right_env ts (N - 1 - i)) (ts (i - 1)) s) as [[a b] x] eqn:ES. cbn [fst snd].
  unfold step_left1. rewrite <- !app_assoc.
  assert (LD : exists w1, exec (load_left1 N i) w = Ok w1 /\ nm w1 = N /\ ne w1 = N /\
    mm w1 i = Some (ts i) /\ mm w1 (i - 1) = Some (ts (i - 1)) /\ (forall j, j < N -> j <> i -> j <> i - 1 -> mm w1 j = None) /\
    dm w1 = dm w /\ dr w1 = dr w /\ (forall n, n < i -> dl w1 n = Some (left_env ts n)) /\
    le w1 i = Some (left_env ts i) /\ (forall j, j < N -> j <> i -> le w1 j = None) /\
    re w1 (N - i - 1) = Some (right_env ts (N - 1 - i)) /\ (forall j, j < N -> j <> N - i - 1 -> re w1 j = None) /\ tmp w1 = tmp w /\ eng w1 = Some s).
  { assert (MI : mm w i = Some (ts i)) by (rewrite P3 by lia; rewrite Nat.eqb_refl; auto).
    assert (MO : forall j, j < N -> j <> i -> mm w j = None) by (intros j H1 H2; rewrite P3 by lia; eqb_dec; auto).
    replace (N - 1 - i) with (N - i - 1) in * by lia.
    unfold load_left1. destruct (Nat.eqb_spec i (N - 1)) as [EI|NI].
    - rewrite (ex_LoadM _ _ _ _ _ _ _ _ _ _ _ _ _ _ (ts (i - 1))); [|lia|apply P4; lia].
      rewrite (ex_LoadE _ _ _ _ _ _ _ _ _ _ _ _ _ _ _ (right_env ts 0)); [|cbn; lia|fs; apply P5; lia].
      rewrite ex_RmE. replace (N - i - 1) with 0 by lia. eexists. split; [reflexivity|]. fs. repeat split; auto.
      + intros j H1 H2 H3. fs. auto.
      + intros n Hn. fs. apply P6. lia.
      + rewrite P7 by lia. replace (i =? i) with true by (symmetry; apply Nat.eqb_refl). auto.
      + intros j H1 H2. rewrite P7 by lia. replace (j =? i) with false by (symmetry; apply Nat.eqb_neq; lia). auto.
      + intros j H1 H2. fs. rewrite P8 by lia. replace (i <? N - 1) with false by (symmetry; apply Nat.ltb_ge; lia). rewrite andb_false_r. auto.
    - rewrite (ex_LoadM _ _ _ _ _ _ _ _ _ _ _ _ _ _ (ts (i - 1))); [|lia|apply P4; lia].
      rewrite (ex_LoadE _ _ _ _ _ _ _ _ _ _ _ _ _ _ _ (left_env ts i)); [|cbn; lia|fs; apply P6; lia].
      rewrite ex_RmE. eexists. split; [reflexivity|]. fs. repeat split; auto.
      + intros j H1 H2 H3. fs. auto.
      + intros n Hn. fs. apply P6. lia.
      + intros j H1 H2. fs. rewrite P7 by lia. eqb_dec. auto.
      + rewrite P8 by lia. eqb_dec. replace (i <? N - 1) with true by (symmetry; apply Nat.ltb_lt; lia). auto.
      + intros j H1 H2. rewrite P8 by lia. eqb_dec. auto. }
  destruct LD as [w1 [Q0 [Q1 [Q2 [Q3 [Q4 [Q5 [Q6 [Q7 [Q8 [Q9 [Q10 [Q11 [Q12 [Q13 Q14]]]]]]]]]]]]]]]. rewrite (sexec_Bs _ _ _ _ Q0). clear Q0.
  cbn [app]. rewrite (sex_U1L i _ w1 (left_env ts i) (right_env ts (N - 1 - i)) (ts i) (ts (i - 1)) a b s x); auto; try lia; [|rewrite Q1; auto].
  match goal with |- context [sexec _ ?v] => set (w2 := v) end.
  set (ts' := fset (fset ts i a) (i - 1) b).
  assert (EL : forall n, n <= i - 1 -> left_env ts' n = left_env ts n) by (intros n Hn; apply left_env_ext; intros j Hj; unfold ts'; fs; auto).
  assert (ER : forall n, n <= N - 1 - i -> right_env ts' n = right_env ts n) by (intros n Hn; apply right_env_ext; [lia|]; intros j Hj; unfold ts'; fs; auto).
  assert (EN : right_env ts' (N - i) = grow R i (right_env ts (N - 1 - i)) a).
  { replace (N - i) with (S (N - 1 - i)) by lia. cbn [SweepSpec.right_env]. rewrite ER by lia. replace (N - 1 - (N - 1 - i)) with i by lia. f_equal. unfold ts'. fs. auto. }
  assert (DM : exists w3, exec (dump_left1 N i) w2 = Ok w3 /\ lpoint1 ts' (i - 1) w3 /\ eng w3 = Some x /\ tmp w3 = tmp w).
  2: { destruct DM as [w3 [D1 D2]]. rewrite (sexec_Bs _ _ _ _ D1). exists w3. auto. }
  unfold dump_left1. rewrite ex_FreeE; [|cbn; lia]. rewrite ex_FreeE; [|cbn; lia].
  rewrite (ex_DumpM _ _ _ _ _ _ _ _ _ _ _ _ _ _ _ a); [|cbn; lia|unfold w2; fs; auto].
  rewrite (ex_DumpE _ _ _ _ _ _ _ _ _ _ _ _ _ _ _ (grow R i (right_env ts (N - 1 - i)) a)); [|cbn; lia|unfold w2; cbn; rewrite Q1; fs; auto].
  unfold w2. eexists. split; [reflexivity|]. split; [|fs; auto]. replace (N - 1 - (i - 1)) with (N - i) in * by lia. constructor; fs; auto; rewrite ?Q1; replace (N - 1 - (i - 1)) with (N - i) in * by lia.
  - intros j Hj. unfold ts'. fcase; subst; eqb_dec; auto; try lia.
  - intros j Hj HN1. unfold ts'. fcase; subst; auto; try lia. rewrite Q6. apply P4; lia.
  - intros n Hn. fcase.
    + subst n. rewrite EN. auto.
    + rewrite ER by lia. rewrite Q7. apply P5. lia.
  - intros n Hn. rewrite EL by lia. apply Q8. lia.
  - intros j Hj. replace (i - 1 =? N - 1) with false by (symmetry; apply Nat.eqb_neq; lia). rewrite andb_false_r. fcase; auto.
  - intros j Hj. replace (i - 1 <? N - 1) with true by (symmetry; apply Nat.ltb_lt; lia). rewrite andb_true_r. fcase; subst; eqb_dec; auto; try lia. rewrite EN. auto.
Qed.

Lemma rights1_ok : forall k i ts s w q, i + k = N - 1 -> rpoint1 ts i w -> eng w = Some s -> exists w', sexec (flat_map (step_right1 N) (seq i k) ++ q) w = sexec q w' /\
  rpoint1 (fst (opts1 (map (fun i => (true, i)) (seq i k)) (ts, s))) (N - 1) w' /\ eng w' = Some (snd (opts1 (map (fun i => (true, i)) (seq i k)) (ts, s))) /\ tmp w' = tmp w.
Proof.
  induction k as [|k IH]; intros i ts s w q HK HP HE.
  - cbn. exists w. replace (N - 1) with i by lia. auto.
  - cbn [seq flat_map map]. rewrite <- app_assoc. destruct (step_right1_ok ts i w (flat_map (step_right1 N) (seq (S i) k) ++ q) s) as [w1 [A1 [A2 [A3 A4]]]]; auto; [lia|].
    rewrite A1. assert (HK' : S i + k = N - 1) by lia. destruct (IH (S i) _ _ w1 q HK' A2 A3) as [w2 [B1 [B2 [B3 B4]]]]. exists w2. rewrite B1. unfold SingleSpec.opts1 in *. cbn [fold_left].
    rewrite <- surjective_pairing in B2, B3. split; [reflexivity|]. split; [exact B2|]. split; [exact B3|congruence].
Qed.
Lemma lefts1_ok : forall k ts s w q, k < N -> lpoint1 ts k w -> eng w = Some s -> exists w', sexec (flat_map (step_left1 N) (rev (seq 1 k)) ++ q) w = sexec q w' /\
  lpoint1 (fst (opts1 (map (fun i => (false, i)) (rev (seq 1 k))) (ts, s))) 0 w' /\ eng w' = Some (snd (opts1 (map (fun i => (false, i)) (rev (seq 1 k))) (ts, s))) /\ tmp w' = tmp w.
Proof.
  induction k as [|k IH]; intros ts s w q HN HP HE.
  - cbn. exists w. auto.
  - rewrite seq_S, rev_unit. cbn [flat_map map]. rewrite <- app_assoc. replace (1 + k) with (S k) by lia.
    destruct (step_left1_ok ts (S k) w (flat_map (step_left1 N) (rev (seq 1 k)) ++ q) s) as [w1 [A1 [A2 [A3 A4]]]]; auto; [lia|].
    rewrite A1. assert (HN' : k < N) by lia. replace (S k - 1) with k in A2 by lia. destruct (IH _ _ w1 q HN' A2 A3) as [w2 [B1 [B2 [B3 B4]]]]. exists w2. rewrite B1. unfold SingleSpec.opts1 in *. cbn [fold_left].
    rewrite <- surjective_pairing in B2, B3. split; [reflexivity|]. split; [exact B2|]. split; [exact B3|congruence].
Qed.
(** between sweeps: exactly site 0 in memory *)
Record spoint1 (ts : nat -> T) (w : world) : Prop := {
  s1_nm : nm w = N;
  s1_mm : forall j, j < N -> mm w j = if j =? 0 then Some (ts j) else None;
  s1_dm : forall j, j < N -> j <> 0 -> dm w j = Some (ts j);
  s1_dr : forall n, n <= N - 1 -> dr w n = Some (right_env ts n);
  s1_dl : dl w 0 = Some (triv L) }.
Lemma sweep1_ok : forall k ts x w q, 2 <= N -> spoint1 ts w -> begin1 k (eng w) = Some x -> exists w', sexec (sweep1 N k ++ q) w = sexec q w' /\
  spoint1 (fst (opts1 (sites1 N) (ts, x))) w' /\ eng w' = Some (snd (opts1 (sites1 N) (ts, x))) /\ tmp w' = tmp w.
Proof.
  intros k ts x w q HN [S1 S2 S3 S4 S5] HE. unfold sweep1. rewrite <- !app_assoc. cbn [app].
  unfold SingleSpec.begin1 in HE. cbn [SingleSite.sexec SingleSite.sexec1 bind exec1]. rewrite HE. match goal with |- exists w', sexec _ ?x = _ /\ _ => set (w0 := x) end.
  unfold sites1.
  destruct (rights1_ok (N - 1) 0 ts x w0 (flat_map (step_left1 N) (rev (seq 1 (N - 1))) ++ q)) as [w1 [A1 [A2 [A3 A4]]]]; auto; try lia.
  { unfold w0. constructor; fs; auto; try lia.
    - intros n0 Hn. apply S4. lia.
    - intros n0 Hn. replace n0 with 0 by lia. auto.
    - intros j Hj. rewrite Nat.ltb_irrefl, andb_false_r. auto. }
  rewrite A1. unfold SingleSpec.opts1 in *. rewrite fold_left_app.
  destruct (fold_left (fun s b => opt1 b s) (map (fun i => (true, i)) (seq 0 (N - 1))) (ts, x)) as [ts1 e1]. cbn [fst snd] in *.
  destruct A2 as [P1 P2 P3 P4 P5 P6 P7 P8].
  destruct (lefts1_ok (N - 1) ts1 e1 w1 q) as [w2 [B1 [B2 [B3 B4]]]]; auto; [lia| |].
  { constructor; auto; rewrite ?Nat.eqb_refl; auto.
    - intros j Hj. rewrite P7 by auto. replace (0 <? N - 1) with true by (symmetry; apply Nat.ltb_lt; lia). auto.
    - intros j Hj. rewrite Nat.ltb_irrefl, andb_false_r. auto. }
  exists w2. rewrite B1. destruct B2 as [L1 L2 L3 L4 L5 L6 L7 L8]. unfold SingleSpec.opts1 in *. split; [reflexivity|]. split; [|split; [exact B3|rewrite B4, A4; reflexivity]]. constructor; auto.
  - intros n Hn. apply L5. lia.
  - apply L6. lia.
Qed.
Lemma sweeps1_ok : forall n k ts w q, 2 <= N -> spoint1 ts w -> (preset1 k <> None \/ eng w <> None) -> exists w', sexec (flat_map (sweep1 N) (seq k n) ++ q) w = sexec q w' /\
  spoint1 (fst (sweeps1 n k (ts, eng w))) w' /\ eng w' = snd (sweeps1 n k (ts, eng w)) /\ (n <> 0 -> eng w' <> None) /\ tmp w' = tmp w.
Proof.
  induction n as [|n IH]; intros k ts w q HN HS HE.
  - exists w. split; [reflexivity|]. split; [exact HS|]. split; [reflexivity|]. split; [intros; lia|reflexivity].
  - cbn [seq flat_map SingleSpec.sweeps1 fst snd]. rewrite <- app_assoc.
    destruct (begin1 k (eng w)) as [x|] eqn:EX.
    + destruct (sweep1_ok k ts x w (flat_map (sweep1 N) (seq (S k) n) ++ q) HN HS EX) as [w1 [A1 [A2 [A3 A4]]]]. rewrite A1.
      destruct (IH (S k) _ w1 q HN A2) as [w2 [B1 [B2 [B3 [B4 B5]]]]]; [right; rewrite A3; discriminate|].
      exists w2. rewrite B1. rewrite A3 in B2, B3. split; auto. split; auto. split; auto. split; [|congruence].
      intros _. destruct n; [|apply B4; discriminate]. rewrite B3. cbn. discriminate.
    + exfalso. unfold SingleSpec.begin1 in EX. destruct (preset1 k); [discriminate|]. destruct (eng w); [discriminate|]. destruct HE; congruence.
Qed.
Lemma preset_first : preset1 0 <> None.
Proof. unfold SingleSite.preset1. destruct noises; discriminate. Qed.

(** the tensors [ts] are on disk, memory is empty, and the temporary directory is absent or holds the environments of [ts] *)
Definition startable1 (ts : nat -> T) (w : world) : Prop :=
  nm w = N /\ mem_empty T E St N w /\ on_disk T E St N ts w /\ (tmp w = true -> envs_ready T E St triv grow N ts 0 (N - 1) w).
Lemma prelude1_ok : forall ts w, 2 <= N -> startable1 ts w -> exists w', exec (prelude1 N (tmp w)) (set_eng T E St None w) = Ok w' /\ spoint1 ts w' /\ eng w' = None /\ tmp w' = true.
Proof.
  intros ts w HN [H1 [H2 [H3 H4]]]. unfold prelude1. destruct (tmp w) eqn:ET.
  - destruct (H4 eq_refl) as [D1 D2]. cbn [app].
    rewrite (ex_LoadM _ _ _ _ _ _ _ _ _ _ _ _ _ _ (ts 0)); [|cbn; lia|apply H3; lia].
    eexists. split; [reflexivity|]. split; [|auto]. constructor; fs; auto.
    intros j Hj. fcase; subst; auto.
  - cbn [app]. rewrite ex_Mkdir.
    destruct (init_envs_ok T E St dT dE triv grow solve2 canoL canoR dbg N 1 ts (set_tmp T E St true (set_eng T E St None w)) [LoadM 0]) as [w1 [A1 [A2 [A3 [A4 [A5 [A6 [A7 [A8 [A9 A10]]]]]]]]]]; auto; try lia.
    rewrite A1. rewrite (ex_LoadM _ _ _ _ _ _ _ _ _ _ _ _ _ _ (ts 0)); [|lia|rewrite A4; apply H3; lia].
    eexists. split; [reflexivity|]. split; [|split; [exact A6|exact A5]]. constructor; fs; auto.
    + intros j Hj. fcase; subst; auto.
    + intros j Hj HJ. rewrite A4. apply H3. auto.
Qed.
Notation run := (run_single T E St dT dE triv grow canoL canoR solve1 noises zero carry solve2 dbg).
Theorem run_single_ok : forall ts k w, 2 <= N -> startable1 ts w -> exists s w', run (S k) w = Ok (s, w') /\
  snd (sweeps1 (S k) 0 (ts, None)) = Some s /\ startable1 (fst (sweeps1 (S k) 0 (ts, None))) w' /\ tmp w' = true.
Proof.
  intros ts k w HN HS. destruct (prelude1_ok ts w HN HS) as [w1 [A1 [A2 [A3 A4]]]]. unfold run_single, single_site. destruct HS as [H1 _]. rewrite H1.
  rewrite (sexec_Bs _ _ _ _ A1).
  destruct (sweeps1_ok (S k) 0 ts w1 [B1 (DumpM 0 true)] HN A2 (or_introl preset_first)) as [w2 [B1' [B2 [B3 [B4 B5]]]]].
  rewrite B1'. rewrite A3 in B2, B3. clear B1' A1. set (ts' := fst (sweeps1 (S k) 0 (ts, None))) in *. destruct B2 as [S1 S2 S3 S4 S5].
  change [B1 (DumpM 0 true)] with (map B1 [DumpM 0 true]). rewrite sexec_B.
  rewrite (ex_DumpM _ _ _ _ _ _ _ _ _ _ _ _ _ _ _ (ts' 0)); [|lia|rewrite S2 by lia; auto].
  cbn [Disk.exec bind]. fs. destruct (eng w2) as [s|] eqn:EE; [|exfalso; apply B4; auto; discriminate]. cbn [use bind].
  eexists s, _. split; [reflexivity|]. split; [auto|]. split; [|fs; congruence].
  split; [exact S1|]. split; [|split].
  - intros j Hj. fcase; subst; auto. rewrite S2 by auto. eqb_dec. auto.
  - intros j Hj. fcase; subst; auto.
  - intros _. split; [intros n Hn; fs; apply S4; auto|exact S5].
Qed.
(** several calls, one after the other *)
Fixpoint runs_single (ks : list nat) (w : world) : res (list St * world) :=
  match ks with [] => Ok ([], w) | k :: ks => let! (s, w) := run (S k) w in let! (ss, w) := runs_single ks w in Ok (s :: ss, w) end.
Fixpoint runs_spec1 (ks : list nat) (ts : nat -> T) : list (option St) * (nat -> T) :=
  match ks with [] => ([], ts) | k :: ks => let r := sweeps1 (S k) 0 (ts, None) in let q := runs_spec1 ks (fst r) in (snd r :: fst q, snd q) end.
Theorem runs_single_ok : forall ks ts w, 2 <= N -> startable1 ts w -> exists ss w', runs_single ks w = Ok (ss, w') /\ map Some ss = fst (runs_spec1 ks ts) /\ startable1 (snd (runs_spec1 ks ts)) w'.
Proof.
  induction ks as [|k ks IH]; intros ts w HN HS.
  - exists [], w. cbn. auto.
  - destruct (run_single_ok ts k w HN HS) as [s [w1 [A1 [A2 [A3 A4]]]]]. destruct (IH _ w1 HN A3) as [ss [w2 [B1 [B2 B3]]]].
    exists (s :: ss), w2. cbn [runs_single]. rewrite A1. cbn [bind]. rewrite B1. cbn [bind]. split; auto. cbn [runs_spec1 fst snd map]. rewrite A2, <- B2. auto.
Qed.
End Facts.
