(** The disk-based two-site run computes what the specification computes from the tensors alone. *)
From Coq Require Import List Arith Lia Bool.
From Verif Require Import Base Disk SweepSpec DiskFacts TwoSite.
Import ListNotations.

Ltac eqb_dec :=
  repeat match goal with
  | |- context [?a =? ?b] => first
      [ replace (a =? b) with true by (symmetry; apply Nat.eqb_eq; lia)
      | replace (a =? b) with false by (symmetry; apply Nat.eqb_neq; lia) ]
  end.
Ltac fs := cbn [le_ de_ set_mm set_dm set_e set_de set_acc set_eng set_tmp nm mm ne le re acc eng dm dl dr tmp];
  repeat first [rewrite fset_eq by lia | rewrite fset_other by lia].
Ltac fcase := cbn [le_ de_ set_mm set_dm set_e set_de set_acc set_eng set_tmp nm mm ne le re acc eng dm dl dr tmp];
  unfold fset; repeat match goal with |- context [?a =? ?b] => destruct (Nat.eqb_spec a b); try lia end.

Section Facts.
Variables T E En : Type.
Variables (dT : T) (dE : E) (triv : side -> E) (grow : side -> nat -> E -> T -> E) (solve : bool -> nat -> E -> T -> T -> E -> T * T * En).
Variables (canoL canoR : T -> T -> T * T).
Variable dbg : bool.
Notation world := (world T E En).
Notation exec := (exec T E En dT dE triv grow solve canoL canoR dbg).
Notation nm := (nm T E En). Notation mm := (mm T E En). Notation ne := (ne T E En). Notation dm := (dm T E En).
Notation le := (le T E En). Notation re := (re T E En). Notation dl := (dl T E En). Notation dr := (dr T E En).
Notation eng := (eng T E En). Notation acc := (acc T E En). Notation tmp := (tmp T E En).
Variable N : nat.
Notation left_env := (left_env T E triv grow). Notation right_env := (right_env T E triv grow N).
Notation opt := (opt T E En triv grow solve N). Notation opts := (opts T E En triv grow solve N).

(** InitEnvs: all right environments for up to N - usn sites *)
Lemma init_envs_ok : forall usn ts w q, 1 <= usn < N -> nm w = N -> mem_empty T E En N w -> on_disk T E En N ts w -> exists w',
  exec (init_envs N usn ++ q) w = exec q w' /\ nm w' = N /\ (forall i, i < N -> mm w' i = None) /\ dm w' = dm w /\ tmp w' = tmp w /\ eng w' = eng w /\
  (forall n, n <= N - usn -> dr w' n = Some (right_env ts n)) /\ (forall n, N - usn < n -> dr w' n = dr w n) /\
  dl w' 0 = Some (triv L) /\ (forall n, 0 < n -> dl w' n = dl w n).
Proof.
  intros usn ts w q HU HN HM HD. unfold init_envs. rewrite <- !app_assoc. cbn [app].
  rewrite (ex_LoadM _ _ _ _ _ _ _ _ _ _ _ _ _ _ (ts (N - 1))); [|lia|apply HD; lia].
  rewrite (ex_SetAcc _ _ _ _ _ _ _ _ _ _ _ _ _ _ _ (ts (N - 1))); [|cbn; lia|fs; auto].
  rewrite (ex_WriteAcc _ _ _ _ _ _ _ _ _ _ _ _ _ _ _ (triv R)); [|reflexivity].
  set (prog := fun i => (if 1 <? i then [LoadM (N - i)] else []) ++ [GrowAcc R (N - i); WriteAcc R i; FreeM (N - i)]).
  set (tailp := LoadM 0 :: SetAcc L 0 :: WriteAcc L 0 :: FreeM 0 :: EmptyM :: q).
  match goal with |- exists w', exec _ ?x = _ /\ _ => set (w1 := x) end.
  assert (LOOP : forall k i v, i + k = S (N - usn) -> 1 <= i -> nm v = N -> dm v = dm w -> tmp v = tmp w -> eng v = eng w -> dl v = dl w ->
    (forall j, j < N -> mm v j = if (j =? N - 1) && (i =? 1) then Some (ts j) else None) -> acc v = Some (right_env ts (i - 1)) ->
    (forall n, n < i -> dr v n = Some (right_env ts n)) -> (forall n, N - usn < n -> dr v n = dr w n) ->
    exists v', exec (flat_map prog (seq i k) ++ tailp) v = exec tailp v' /\ nm v' = N /\ dm v' = dm w /\ tmp v' = tmp w /\ eng v' = eng w /\ dl v' = dl w /\
      (forall j, j < N -> mm v' j = if (j =? N - 1) && (S (N - usn) =? 1) then Some (ts j) else None) /\
      (forall n, n <= N - usn -> dr v' n = Some (right_env ts n)) /\ (forall n, N - usn < n -> dr v' n = dr w n)).
  { induction k as [|k IH]; intros i v HI H1 V1 V2 V3 V4 V5 V6 V7 V8 V9.
    - exists v. cbn [seq flat_map app]. replace (S (N - usn)) with i by lia. repeat split; auto. intros; apply V8; lia.
    - cbn [seq flat_map]. rewrite <- app_assoc. unfold prog at 1.
      assert (G : exists v1, exec (((if 1 <? i then [LoadM (N - i)] else []) ++ [GrowAcc R (N - i); WriteAcc R i; FreeM (N - i)]) ++ flat_map prog (seq (S i) k) ++ tailp) v =
        exec ([GrowAcc R (N - i); WriteAcc R i; FreeM (N - i)] ++ flat_map prog (seq (S i) k) ++ tailp) v1 /\
        nm v1 = N /\ dm v1 = dm w /\ tmp v1 = tmp w /\ eng v1 = eng w /\ dl v1 = dl w /\ (forall j, j < N -> mm v1 j = if j =? N - i then Some (ts j) else None) /\
        acc v1 = acc v /\ dr v1 = dr v).
      { destruct (Nat.ltb_spec 1 i).
        - cbn [app]. rewrite (ex_LoadM _ _ _ _ _ _ _ _ _ _ _ _ _ _ (ts (N - i))); [|lia|rewrite V2; apply HD; lia].
          eexists. split; [reflexivity|]. fs. repeat split; auto. intros j Hj. fcase; [subst; auto|]. rewrite V6 by auto. replace (i =? 1) with false by (symmetry; apply Nat.eqb_neq; lia). rewrite andb_false_r. auto.
        - assert (i = 1) by lia. subst i. cbn [app]. exists v. repeat split; auto. intros j Hj. rewrite V6 by auto. rewrite andb_true_r. auto. }
      destruct G as [v1 [G0 [G1 [G2 [G3 [G4 [G5 [G6 [G7 G8]]]]]]]]]. rewrite G0. cbn [app].
      rewrite (ex_GrowAcc _ _ _ _ _ _ _ _ _ _ _ _ _ _ _ (ts (N - i)) (right_env ts (i - 1))); [|lia|rewrite G6 by lia; eqb_dec; auto|congruence].
      rewrite (ex_WriteAcc _ _ _ _ _ _ _ _ _ _ _ _ _ _ _ (right_env ts i)); [|cbn; destruct i; [lia|]; cbn [SweepSpec.right_env]; rewrite Nat.sub_succ, Nat.sub_0_r; replace (N - 1 - i) with (N - S i) by lia; auto].
      rewrite ex_FreeM; [|cbn; lia].
      apply IH; fs; auto; try lia.
      + intros j Hj. replace (S i =? 1) with false by (symmetry; apply Nat.eqb_neq; lia). rewrite andb_false_r. fcase; auto. rewrite G6 by auto. eqb_dec. auto.
      + replace (S i - 1) with i by lia. destruct i; [lia|]. cbn [SweepSpec.right_env]. rewrite Nat.sub_succ, Nat.sub_0_r. replace (N - 1 - i) with (N - S i) by lia. auto.
      + intros n Hn. fcase; [subst; auto|]. rewrite G8. apply V8. lia.
      + intros n Hn. fcase. rewrite G8. apply V9. lia. }
  destruct (LOOP (N - usn) 1 w1) as [v [L0 [L1 [L2 [L3 [L4 [L5 [L6 [L7 L8]]]]]]]]];
    match goal with |- exists _, _ => idtac | _ => unfold w1; fs; auto; try lia end.
  - intros j Hj. rewrite andb_true_r. fcase; [subst; auto|]. apply HM. auto.
  - intros n Hn. fcase. subst. auto.
  - intros n Hn. fcase. auto.
  - rewrite L0. unfold tailp. cbn [app].
    rewrite (ex_LoadM _ _ _ _ _ _ _ _ _ _ _ _ _ _ (ts 0)); [|lia|rewrite L2; apply HD; lia].
    rewrite (ex_SetAcc _ _ _ _ _ _ _ _ _ _ _ _ _ _ _ (ts 0)); [|cbn; lia|fs; auto].
    rewrite (ex_WriteAcc _ _ _ _ _ _ _ _ _ _ _ _ _ _ _ (triv L)); [|reflexivity].
    rewrite ex_FreeM; [|cbn; lia].
    assert (ME : forall i, i < N -> fset (fset (mm v) 0 (Some (ts 0))) 0 None i = None).
    { intros i Hi. fcase; auto. rewrite L6 by auto. replace (S (N - usn) =? 1) with false by (symmetry; apply Nat.eqb_neq; lia). rewrite andb_false_r. auto. }
    rewrite ex_EmptyM; [|fs; rewrite L1; exact ME].
    eexists. split; [reflexivity|]. fs. repeat split; auto. intros n Hn. fs. rewrite L5. auto.
Qed.

(** *** the state before right step i and before left step i *)
Definition rmem (i : nat) : nat := if i =? 0 then 1 else i.
Record rpoint (ts : nat -> T) (i : nat) (w : world) : Prop := {
  rp_nm : nm w = N; rp_ne : ne w = N - 1;
  rp_mm : forall j, j < N -> mm w j = if j =? rmem i then Some (ts j) else None;
  rp_dm : forall j, j < N -> j <> rmem i -> dm w j = Some (ts j);
  rp_dr : forall n, n <= N - 2 - i -> dr w n = Some (right_env ts n);
  rp_dl : forall n, n <= i -> dl w n = Some (left_env ts n);
  rp_le : forall j, j < N - 1 -> le w j = if (j =? i) && (0 <? i) then Some (left_env ts i) else None;
  rp_re : forall j, j < N - 1 -> re w j = None }.
Definition lmem (i : nat) : nat := if i =? N - 1 then N - 2 else i.
Record lpoint (ts : nat -> T) (i : nat) (w : world) : Prop := {
  lp_nm : nm w = N; lp_ne : ne w = N - 1;
  lp_mm : forall j, j < N -> mm w j = if j =? lmem i then Some (ts j) else None;
  lp_dm : forall j, j < N -> j <> lmem i -> dm w j = Some (ts j);
  lp_dr : forall n, n <= N - 1 - i -> dr w n = Some (right_env ts n);
  lp_dl : forall n, n <= i - 1 -> dl w n = Some (left_env ts n);
  lp_le : forall j, j < N - 1 -> le w j = if (j =? i - 1) && (i =? N - 1) then Some (left_env ts (N - 2)) else None;
  lp_re : forall j, j < N - 1 -> re w j = if (j =? N - 1 - i) && (i <? N - 1) then Some (right_env ts (N - 1 - i)) else None }.

Lemma step_right_ok : forall ts i w q e, i < N - 2 -> rpoint ts i w -> exists w', exec (step_right N i ++ q) w = exec q w' /\
  rpoint (fst (opt (true, i) (ts, e))) (S i) w' /\ eng w' = snd (opt (true, i) (ts, e)) /\ tmp w' = tmp w.
Proof.
  intros ts i w q e HI [P1 P2 P3 P4 P5 P6 P7 P8].
  unfold opt, SweepSpec.opt. destruct (solve true i (left_env ts i) (ts i) (ts (i + 1)) (right_env ts (N - (i + 2)))) as [[a b] x] eqn:ES. cbn [fst snd].
  (* loading *)
  assert (LD : exists w1, exec (step_right N i ++ q) w = exec (([Upd2 true i] ++ dump_right N i) ++ q) w1 /\ nm w1 = N /\ ne w1 = N - 1 /\
    mm w1 i = Some (ts i) /\ mm w1 (i + 1) = Some (ts (i + 1)) /\ (forall j, j < N -> j <> i -> j <> i + 1 -> mm w1 j = None) /\
    dm w1 = dm w /\ dl w1 = dl w /\ (forall n, n < N - 2 - i -> dr w1 n = Some (right_env ts n)) /\
    le w1 i = Some (left_env ts i) /\ (forall j, j < N - 1 -> j <> i -> le w1 j = None) /\
    re w1 (N - (i + 2)) = Some (right_env ts (N - (i + 2))) /\ (forall j, j < N - 1 -> j <> N - (i + 2) -> re w1 j = None) /\ tmp w1 = tmp w).
  { unfold step_right, load_right. destruct (Nat.eqb_spec i 0) as [->|NZ]; rewrite <- !app_assoc; cbn [app].
    - rewrite (ex_LoadM _ _ _ _ _ _ _ _ _ _ _ _ _ _ (ts 0)); [|lia|apply P4; [lia|]; unfold rmem; simpl; lia].
      rewrite (ex_LoadE _ _ _ _ _ _ _ _ _ _ _ _ _ _ _ (right_env ts (N - 2))); [|cbn; lia|fs; apply P5; lia].
      rewrite ex_RmE. rewrite (ex_LoadE _ _ _ _ _ _ _ _ _ _ _ _ _ _ _ (left_env ts 0)); [|cbn; lia|fs; apply P6; lia].
      eexists. split; [reflexivity|]. fs. repeat split; auto.
      + rewrite P3 by lia. auto.
      + intros j H1 H2 H3. fs. rewrite P3 by lia. unfold rmem. simpl. eqb_dec. auto.
      + intros n Hn. fs. apply P5. lia.
      + intros j H1 H2. fs. rewrite P7 by lia. eqb_dec. auto.
      + intros j H1 H2. fs. auto.
    - rewrite (ex_LoadM _ _ _ _ _ _ _ _ _ _ _ _ _ _ (ts (i + 1))); [|lia|apply P4; [lia|]; unfold rmem; eqb_dec; lia].
      rewrite (ex_LoadE _ _ _ _ _ _ _ _ _ _ _ _ _ _ _ (right_env ts (N - (i + 2)))); [|cbn; lia|fs; apply P5; lia].
      rewrite ex_RmE. eexists. split; [reflexivity|]. fs. repeat split; auto.
      + rewrite P3 by lia. unfold rmem. eqb_dec. auto.
      + intros j H1 H2 H3. fs. rewrite P3 by lia. unfold rmem. eqb_dec. auto.
      + intros n Hn. fs. apply P5. lia.
      + rewrite P7 by lia. eqb_dec. replace (0 <? i) with true by (symmetry; apply Nat.ltb_lt; lia). auto.
      + intros j H1 H2. rewrite P7 by lia. eqb_dec. auto.
      + intros j H1 H2. fs. auto. }
  destruct LD as [w1 [Q0 [Q1 [Q2 [Q3 [Q4 [Q5 [Q6 [Q7 [Q8 [Q9 [Q10 [Q11 [Q12 Q13]]]]]]]]]]]]]]. rewrite Q0. clear Q0.
  unfold dump_right. cbn [app].
  rewrite (ex_UpdR _ _ _ _ _ _ _ _ _ _ _ _ _ _ (left_env ts i) (right_env ts (N - (i + 2))) (ts i) (ts (i + 1)) a b x); auto; try lia; [|rewrite Q1; auto].
  rewrite ex_FreeE; [|cbn; lia]. rewrite ex_FreeE; [|cbn; lia].
  rewrite (ex_DumpM _ _ _ _ _ _ _ _ _ _ _ _ _ _ _ a); [|cbn; lia|fs; auto].
  rewrite (ex_DumpE _ _ _ _ _ _ _ _ _ _ _ _ _ _ _ (grow L i (left_env ts i) a)); [|cbn; lia|fs; auto].
  set (ts' := fset (fset ts i a) (i + 1) b).
  assert (EL : forall n, n <= i -> left_env ts' n = left_env ts n) by (intros n Hn; apply left_env_ext; intros j Hj; unfold ts'; fs; auto).
  assert (ER : forall n, n <= N - 2 - i -> right_env ts' n = right_env ts n) by (intros n Hn; apply right_env_ext; [lia|]; intros j Hj; unfold ts'; fs; auto).
  assert (EN : left_env ts' (S i) = grow L i (left_env ts i) a) by (cbn [SweepSpec.left_env]; rewrite EL by lia; f_equal; unfold ts'; fs; auto).
  assert (RM : rmem (S i) = i + 1) by (unfold rmem; simpl; lia).
  eexists. split; [reflexivity|]. split; [|fs; auto]. constructor; fs; auto.
  - intros j Hj. rewrite RM. fcase; subst; auto; try (unfold ts'; fs; auto).
  - intros j Hj HN. rewrite RM in HN. unfold ts'. fcase; subst; auto. rewrite Q6. unfold rmem in P4. apply P4; auto. destruct (Nat.eqb_spec i 0); lia.
  - intros n Hn. rewrite ER by lia. apply Q8. lia.
  - intros n Hn. fcase.
    + subst n. replace (i + 1) with (S i) by lia. rewrite EN. auto.
    + rewrite EL by lia. rewrite Q7. apply P6. lia.
  - intros j Hj. replace (0 <? S i) with true by auto. rewrite andb_true_r. fcase; subst; auto. rewrite EN. auto.
  - intros j Hj. fcase; auto.
Qed.

Lemma step_left_ok : forall ts i w q e, 1 < i < N -> lpoint ts i w -> exists w', exec (step_left N i ++ q) w = exec q w' /\
  lpoint (fst (opt (false, i - 1) (ts, e))) (i - 1) w' /\ eng w' = snd (opt (false, i - 1) (ts, e)) /\ tmp w' = tmp w.
Proof.
  intros ts i w q e HI [P1 P2 P3 P4 P5 P6 P7 P8].
  unfold opt, SweepSpec.opt. replace (i - 1 + 1) with i by lia. replace (N - (i - 1 + 2)) with (N - 1 - i) by lia.
  destruct (solve false (i - 1) (left_env ts (i - 1)) (ts (i - 1)) (ts i) (right_env ts (N - 1 - i))) as [[a b] x] eqn:ES. cbn [fst snd].
  assert (LD : exists w1, exec (step_left N i ++ q) w = exec (([Upd2 false (i - 1)] ++ dump_left N i) ++ q) w1 /\ nm w1 = N /\ ne w1 = N - 1 /\
    mm w1 (i - 1) = Some (ts (i - 1)) /\ mm w1 i = Some (ts i) /\ (forall j, j < N -> j <> i - 1 -> j <> i -> mm w1 j = None) /\
    dm w1 = dm w /\ dr w1 = dr w /\ (forall n, n < i - 1 -> dl w1 n = Some (left_env ts n)) /\
    le w1 (i - 1) = Some (left_env ts (i - 1)) /\ (forall j, j < N - 1 -> j <> i - 1 -> le w1 j = None) /\
    re w1 (N - 1 - i) = Some (right_env ts (N - 1 - i)) /\ (forall j, j < N - 1 -> j <> N - 1 - i -> re w1 j = None) /\ tmp w1 = tmp w).
  { unfold step_left, load_left. destruct (Nat.eqb_spec i (N - 1)) as [EI|NI]; rewrite <- !app_assoc; cbn [app].
    - assert (LM : lmem i = i - 1) by (unfold lmem; eqb_dec; lia).
      rewrite (ex_LoadM _ _ _ _ _ _ _ _ _ _ _ _ _ _ (ts i)); [|lia|apply P4; [lia|]; rewrite LM; lia].
      rewrite (ex_LoadE _ _ _ _ _ _ _ _ _ _ _ _ _ _ _ (right_env ts 0)); [|cbn; lia|fs; apply P5; lia].
      rewrite ex_RmE. eexists. split; [reflexivity|]. fs. repeat split; auto.
      + rewrite P3 by lia. rewrite LM. eqb_dec. auto.
      + intros j H1 H2 H3. fs. rewrite P3 by lia. rewrite LM. eqb_dec. auto.
      + intros n Hn. fs. apply P6. lia.
      + rewrite P7 by lia. eqb_dec. simpl. do 2 f_equal. lia.
      + intros j H1 H2. rewrite P7 by lia. eqb_dec. auto.
      + replace (N - 1 - i) with 0 by lia. auto.
      + intros j H1 H2. fs. rewrite P8 by lia. replace (i <? N - 1) with false by (symmetry; apply Nat.ltb_ge; lia). rewrite andb_false_r. auto.
    - assert (LM : lmem i = i) by (unfold lmem; eqb_dec; lia).
      rewrite (ex_LoadM _ _ _ _ _ _ _ _ _ _ _ _ _ _ (ts (i - 1))); [|lia|apply P4; [lia|]; rewrite LM; lia].
      rewrite (ex_LoadE _ _ _ _ _ _ _ _ _ _ _ _ _ _ _ (left_env ts (i - 1))); [|cbn; lia|fs; apply P6; lia].
      rewrite ex_RmE. eexists. split; [reflexivity|]. fs. repeat split; auto.
      + rewrite P3 by lia. rewrite LM. eqb_dec. auto.
      + intros j H1 H2 H3. fs. rewrite P3 by lia. rewrite LM. eqb_dec. auto.
      + intros n Hn. fs. apply P6. lia.
      + intros j H1 H2. fs. rewrite P7 by lia. eqb_dec. auto.
      + rewrite P8 by lia. eqb_dec. replace (i <? N - 1) with true by (symmetry; apply Nat.ltb_lt; lia). auto.
      + intros j H1 H2. rewrite P8 by lia. eqb_dec. auto. }
  destruct LD as [w1 [Q0 [Q1 [Q2 [Q3 [Q4 [Q5 [Q6 [Q7 [Q8 [Q9 [Q10 [Q11 [Q12 Q13]]]]]]]]]]]]]]. rewrite Q0. clear Q0.
  unfold dump_left. cbn [app].
  rewrite (ex_UpdL _ _ _ _ _ _ _ _ _ _ _ _ _ _ (left_env ts (i - 1)) (right_env ts (N - 1 - i)) (ts (i - 1)) (ts i) a b x); auto; try lia;
    [|rewrite Q1; replace (N - (i - 1 + 2)) with (N - 1 - i) by lia; auto|replace (i - 1 + 1) with i by lia; auto].
  replace (i - 1 + 1) with i by lia. rewrite Q1.
  rewrite ex_FreeE; [|cbn; lia]. rewrite ex_FreeE; [|cbn; lia].
  rewrite (ex_DumpM _ _ _ _ _ _ _ _ _ _ _ _ _ _ _ b); [|cbn; lia|fs; auto].
  rewrite (ex_DumpE _ _ _ _ _ _ _ _ _ _ _ _ _ _ _ (grow R i (right_env ts (N - 1 - i)) b)); [|cbn; lia|fs; auto].
  set (ts' := fset (fset ts (i - 1) a) i b).
  assert (EL : forall n, n <= i - 1 -> left_env ts' n = left_env ts n) by (intros n Hn; apply left_env_ext; intros j Hj; unfold ts'; fs; auto).
  assert (ER : forall n, n <= N - 1 - i -> right_env ts' n = right_env ts n) by (intros n Hn; apply right_env_ext; [lia|]; intros j Hj; unfold ts'; fs; auto).
  assert (EN : right_env ts' (N - i) = grow R i (right_env ts (N - 1 - i)) b).
  { replace (N - i) with (S (N - 1 - i)) by lia. cbn [SweepSpec.right_env]. rewrite ER by lia. replace (N - 1 - (N - 1 - i)) with i by lia. f_equal. unfold ts'; fs; auto. }
  assert (LM : lmem (i - 1) = i - 1) by (unfold lmem; eqb_dec; lia).
  assert (RI : N - 1 - (i - 1) = N - i) by lia.
  eexists. split; [reflexivity|]. split; [|fs; auto]. constructor; fs; auto; rewrite ?RI.
  - intros j Hj. rewrite LM. fcase; subst; auto; try (unfold ts'; fs; auto).
  - intros j Hj HN. rewrite LM in HN. unfold ts'. fcase; subst; auto. rewrite Q6. apply P4; auto. unfold lmem. destruct (Nat.eqb_spec i (N - 1)); lia.
  - intros n Hn. fcase.
    + subst n. rewrite EN. auto.
    + rewrite ER by lia. rewrite Q7. apply P5. lia.
  - intros n Hn. rewrite EL by lia. apply Q8. lia.
  - intros j Hj. replace (i - 1 =? N - 1) with false by (symmetry; apply Nat.eqb_neq; lia). rewrite andb_false_r. fcase; auto. apply Q10; lia.
  - intros j Hj. replace (i - 1 <? N - 1) with true by (symmetry; apply Nat.ltb_lt; lia). rewrite andb_true_r. fcase; rewrite ?EN; auto. apply Q12; lia.
Qed.

Lemma rights_ok : forall k i ts e w q, i + k = N - 2 -> rpoint ts i w -> eng w = e -> exists w', exec (flat_map (step_right N) (seq i k) ++ q) w = exec q w' /\
  rpoint (fst (opts (map (fun i => (true, i)) (seq i k)) (ts, e))) (N - 2) w' /\ eng w' = snd (opts (map (fun i => (true, i)) (seq i k)) (ts, e)) /\ tmp w' = tmp w.
Proof.
  induction k as [|k IH]; intros i ts e w q HK HP HE.
  - cbn. exists w. replace (N - 2) with i by lia. auto.
  - cbn [seq flat_map map]. rewrite <- app_assoc. destruct (step_right_ok ts i w (flat_map (step_right N) (seq (S i) k) ++ q) e) as [w1 [A1 [A2 [A3 A4]]]]; auto; [lia|].
    rewrite A1. assert (HK' : S i + k = N - 2) by lia. destruct (IH (S i) _ _ w1 q HK' A2 A3) as [w2 [B1 [B2 [B3 B4]]]]. exists w2. rewrite B1. unfold opts, SweepSpec.opts in *. cbn [fold_left].
    rewrite <- surjective_pairing in B2, B3. split; [reflexivity|]. split; [exact B2|]. split; [exact B3|congruence].
Qed.
Lemma lefts_ok : forall k i ts e w q, i = k + 1 -> i < N -> lpoint ts i w -> eng w = e -> exists w', exec (flat_map (step_left N) (rev (seq 2 k)) ++ q) w = exec q w' /\
  lpoint (fst (opts (map (fun i => (false, i - 1)) (rev (seq 2 k))) (ts, e))) 1 w' /\ eng w' = snd (opts (map (fun i => (false, i - 1)) (rev (seq 2 k))) (ts, e)) /\ tmp w' = tmp w.
Proof.
  induction k as [|k IH]; intros i ts e w q HK HN HP HE.
  - cbn. exists w. replace 1 with i by lia. auto.
  - rewrite seq_S, rev_unit. cbn [flat_map map]. rewrite <- app_assoc. replace (2 + k) with i by lia.
    destruct (step_left_ok ts i w (flat_map (step_left N) (rev (seq 2 k)) ++ q) e) as [w1 [A1 [A2 [A3 A4]]]]; auto; [lia|].
    rewrite A1. assert (HK' : i - 1 = k + 1) by lia. assert (HN' : i - 1 < N) by lia. destruct (IH (i - 1) _ _ w1 q HK' HN' A2 A3) as [w2 [B1 [B2 [B3 B4]]]]. exists w2. rewrite B1. unfold opts, SweepSpec.opts in *. cbn [fold_left].
    rewrite <- surjective_pairing in B2, B3. split; [reflexivity|]. split; [exact B2|]. split; [exact B3|congruence].
Qed.
(** between sweeps: only site 1 in memory *)
Record spoint (ts : nat -> T) (w : world) : Prop := {
  sp_nm : nm w = N;
  sp_mm : forall j, j < N -> mm w j = if j =? 1 then Some (ts j) else None;
  sp_dm : forall j, j < N -> j <> 1 -> dm w j = Some (ts j);
  sp_dr : forall n, n <= N - 2 -> dr w n = Some (right_env ts n);
  sp_dl : dl w 0 = Some (triv L) }.
Lemma sweep_ok : forall ts e w q, 3 <= N -> spoint ts w -> eng w = e -> exists w', exec (sweep N ++ q) w = exec q w' /\
  spoint (fst (opts (bonds 0 (N - 1)) (ts, e))) w' /\ eng w' = snd (opts (bonds 0 (N - 1)) (ts, e)) /\ tmp w' = tmp w.
Proof.
  intros ts e w q HN [S1 S2 S3 S4 S5] HE. unfold sweep. rewrite <- !app_assoc. cbn [app]. rewrite ex_NewEnvs.
  unfold bonds. replace (N - 1 - 1 - 0) with (N - 2) by lia. cbn [Nat.add].
  match goal with |- exists w', exec _ ?x = _ /\ _ => set (w0 := x) end.
  destruct (rights_ok (N - 2) 0 ts e w0 (flat_map (step_left N) (rev (seq 2 (N - 2))) ++ q)) as [w1 [A1 [A2 [A3 A4]]]]; auto.
  { unfold w0. constructor; cbn; auto; try lia.
    - intros n Hn. apply S4. lia.
    - intros n Hn. replace n with 0 by lia. auto.
    - intros j Hj. rewrite andb_false_r. auto. }
  rewrite A1. unfold opts, SweepSpec.opts in *. rewrite fold_left_app.
  destruct (fold_left (fun s b => SweepSpec.opt T E En triv grow solve N b s) (map (fun i => (true, i)) (seq 0 (N - 2))) (ts, e)) as [ts1 e1]. cbn [fst snd] in *.
  destruct A2 as [P1 P2 P3 P4 P5 P6 P7 P8].
  destruct (lefts_ok (N - 2) (N - 1) ts1 e1 w1 q) as [w2 [B1 [B2 [B3 B4]]]]; auto; [lia|lia| |].
  { unfold rmem in *. replace (N - 2 =? 0) with false in * by (symmetry; apply Nat.eqb_neq; lia).
    constructor; auto; unfold lmem; rewrite ?Nat.eqb_refl; auto.
    - intros n Hn. apply P5. lia.
    - intros n Hn. apply P6. lia.
    - intros j Hj. rewrite P7 by auto. replace (0 <? N - 2) with true by (symmetry; apply Nat.ltb_lt; lia). replace (N - 1 - 1) with (N - 2) by lia. auto.
    - intros j Hj. rewrite Nat.ltb_irrefl, andb_false_r. auto. }
  exists w2. rewrite B1. destruct B2 as [L1 L2 L3 L4 L5 L6 L7 L8]. unfold SweepSpec.opts in *. split; [reflexivity|]. split; [|split; [exact B3|rewrite B4, A4; reflexivity]]. constructor; auto.
  - intros j Hj. rewrite L3 by auto. unfold lmem. replace (1 =? N - 1) with false by (symmetry; apply Nat.eqb_neq; lia). auto.
  - intros j Hj HJ. apply L4; auto. unfold lmem. replace (1 =? N - 1) with false by (symmetry; apply Nat.eqb_neq; lia). auto.
  - intros n Hn. apply L5. lia.
  - rewrite (L6 0) by lia. reflexivity.
Qed.
Lemma sweeps_ok : forall k ts e w q, 3 <= N -> spoint ts w -> eng w = e -> exists w', exec (concat (repeat (sweep N) k) ++ q) w = exec q w' /\
  spoint (fst (sweeps_spec T E En triv grow solve N 0 (N - 1) k (ts, e))) w' /\ eng w' = snd (sweeps_spec T E En triv grow solve N 0 (N - 1) k (ts, e)) /\ tmp w' = tmp w.
Proof.
  induction k as [|k IH]; intros ts e w q HN HS HE.
  - cbn. exists w. auto.
  - cbn [repeat concat]. rewrite <- app_assoc. destruct (sweep_ok ts e w (concat (repeat (sweep N) k) ++ q) HN HS HE) as [w1 [A1 [A2 [A3 A4]]]].
    rewrite A1. destruct (IH _ _ w1 q HN A2 A3) as [w2 [B1 [B2 [B3 B4]]]]. exists w2. rewrite B1. rewrite <- surjective_pairing in B2, B3.
    cbn [sweeps_spec]. split; [reflexivity|]. split; [exact B2|]. split; [exact B3|congruence].
Qed.
Lemma opt_some : forall b s, exists x, snd (opt b s) = Some x.
Proof. intros [rt l] [ts e]. unfold opt, SweepSpec.opt. destruct (solve rt l (left_env ts l) (ts l) (ts (l + 1)) (right_env ts (N - (l + 2)))) as [[a b] x]. simpl. eauto. Qed.
Lemma opts_some : forall bs s, bs <> [] -> exists x, snd (opts bs s) = Some x.
Proof.
  intros bs s H. destruct (exists_last H) as [l [b E0]]. subst bs. unfold opts, SweepSpec.opts. rewrite fold_left_app. simpl. apply opt_some.
Qed.
Lemma sweeps_some : forall k s, 3 <= N -> exists x, snd (sweeps_spec T E En triv grow solve N 0 (N - 1) (S k) s) = Some x.
Proof.
  induction k as [|k IH]; intros s HN; [|cbn [sweeps_spec]; apply IH; auto]. cbn [sweeps_spec]. apply opts_some. unfold bonds. replace (N - 1 - 1 - 0) with (S (N - 3)) by lia. simpl. discriminate.
Qed.

(** a state from which a run can start: the MPS on disk, nothing in memory, and either no temporary directory or valid environments *)
Definition startable (ts : nat -> T) (w : world) : Prop :=
  nm w = N /\ mem_empty T E En N w /\ on_disk T E En N ts w /\ (tmp w = true -> envs_ready T E En triv grow N ts 0 (N - 2) w).
Definition prelude (have : bool) : list instr := [EmptyM] ++ (if have then [] else Mkdir :: init_envs N 2) ++ [LoadM 1].
Lemma two_site_split : forall k have, two_site N k have = prelude have ++ concat (repeat (sweep N) k) ++ [DumpM 1 true].
Proof. intros. unfold two_site, prelude. rewrite <- !app_assoc. reflexivity. Qed.
Lemma prelude_ok : forall ts w, 3 <= N -> startable ts w -> exists w', exec (prelude (tmp w)) (set_eng T E En None w) = Ok w' /\ spoint ts w' /\ eng w' = None /\ tmp w' = true.
Proof.
  intros ts w HN [W1 [W2 [W3 W4]]]. set (w0 := set_eng T E En None w).
  assert (E0 : exists w1, exec (prelude (tmp w)) w0 = exec [LoadM 1] w1 /\ nm w1 = N /\ mem_empty T E En N w1 /\ on_disk T E En N ts w1 /\ eng w1 = None /\ tmp w1 = true /\ envs_ready T E En triv grow N ts 0 (N - 2) w1).
  { unfold prelude. cbn [app]. rewrite ex_EmptyM; [|unfold w0; fs; rewrite W1; auto]. destruct (tmp w) eqn:ET.
    - exists w0. cbn [app]. unfold w0. split; auto. repeat split; auto; try apply W4; auto.
    - cbn [app]. rewrite ex_Mkdir. set (w2 := set_tmp T E En true w0).
      destruct (init_envs_ok 2 ts w2 [LoadM 1]) as [w3 [I1 [I2 [I3 [I4 [I5 [I6 [I7 [I8 [I9 I10]]]]]]]]]]; auto; try lia.
      exists w3. split; [exact I1|]. repeat split; auto. intros i Hi. rewrite I4. apply W3. auto. }
  destruct E0 as [w1 [E1 [V1 [V2 [V3 [V4 [V5 [V6 V7]]]]]]]]. rewrite E1.
  rewrite (ex_LoadM _ _ _ _ _ _ _ _ _ _ _ _ _ _ (ts 1)); [|lia|apply V3; lia].
  eexists. split; [reflexivity|]. split; [|fs; auto]. constructor; fs; auto. intros j Hj. fcase; [subst; auto|]. apply V2. auto.
Qed.
Theorem run_ok : forall ts k w, 3 <= N -> startable ts w ->
  let s := sweeps_spec T E En triv grow solve N 0 (N - 1) (S k) (ts, None) in
  exists e w', run_two_site T E En dT dE triv grow solve canoL canoR dbg (S k) w = Ok (e, w') /\ snd s = Some e /\ startable (fst s) w' /\ tmp w' = true.
Proof.
  intros ts k w HN HW s. destruct (sweeps_some k (ts, None) HN) as [x HX]. exists x.
  unfold run_two_site. assert (W1 : nm w = N) by apply HW. rewrite W1, two_site_split.
  destruct (prelude_ok ts w HN HW) as [w2 [E1 [E2 [E3 E4]]]]. rewrite (exec_app_ok _ _ _ _ _ _ _ _ _ _ _ _ _ _ _ E1).
  destruct (sweeps_ok (S k) ts None w2 [DumpM 1 true] HN E2 E3) as [w3 [A1 [A2 [A3 A4]]]].
  rewrite A1. destruct A2 as [P1 P2 P3 P4 P5]. rewrite (ex_DumpM _ _ _ _ _ _ _ _ _ _ _ _ _ _ _ (fst s 1)); [|lia|rewrite P2 by lia; auto].
  cbn [Disk.exec bind]. fs. rewrite A3, HX. cbn [use bind]. eexists. split; [reflexivity|]. split; auto. split; [|fs; rewrite A4; auto]. repeat split; fs; auto.
  - intros i Hi. fs. fcase; auto. rewrite P2 by auto. eqb_dec. auto.
  - intros i Hi. fs. fcase; [subst; auto|]. apply P3; auto.
Qed.
(** any number of runs in one directory *)
Fixpoint runs_two_site (ks : list nat) (w : world) : res (list En * world) :=
  match ks with
  | [] => Ok ([], w)
  | k :: ks => let! (e, w) := run_two_site T E En dT dE triv grow solve canoL canoR dbg (S k) w in let! (es, w) := runs_two_site ks w in Ok (e :: es, w)
  end.
Fixpoint runs_spec (ks : list nat) (ts : nat -> T) : list (option En) * (nat -> T) :=
  match ks with
  | [] => ([], ts)
  | k :: ks => let s := sweeps_spec T E En triv grow solve N 0 (N - 1) (S k) (ts, None) in let (es, ts') := runs_spec ks (fst s) in (snd s :: es, ts')
  end.
Theorem runs_ok : forall ks ts w, 3 <= N -> startable ts w -> exists es w', runs_two_site ks w = Ok (es, w') /\
  map Some es = fst (runs_spec ks ts) /\ startable (snd (runs_spec ks ts)) w'.
Proof.
  induction ks as [|k ks IH]; intros ts w HN HS.
  - exists [], w. cbn. auto.
  - destruct (run_ok ts k w HN HS) as [e [w1 [A1 [A2 [A3 A4]]]]]. destruct (IH _ w1 HN A3) as [es [w2 [B1 [B2 B3]]]].
    exists (e :: es), w2. cbn [runs_two_site runs_spec]. rewrite A1. cbn [bind]. rewrite B1. cbn [bind]. split; auto.
    destruct (runs_spec ks (fst (sweeps_spec T E En triv grow solve N 0 (N - 1) (S k) (ts, None)))) as [x y] eqn:ER. cbn [fst snd] in *. split; auto. cbn [map]. congruence.
Qed.
End Facts.
