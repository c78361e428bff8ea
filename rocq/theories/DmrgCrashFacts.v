(** A DMRG run that dies during an update, and the run of a new process after it. *)
From Coq Require Import List Arith Lia Bool.
From Verif Require Import Base Disk SweepSpec DiskFacts TwoSite VmpsInit NoiseSpec VmpsInitFacts Dmrg DmrgSpec DmrgFacts DmrgMore NoiseCrashFacts.
Import ListNotations.

(** neighbouring updates of a sweep *)
Lemma rights_then : forall ls n i bs c b rest, map (fun i => (true, i)) (seq i n) ++ ls = bs ++ c :: b :: rest -> fst b = true -> (forall x, In x ls -> fst x = false) ->
  c = (true, snd b - 1) /\ i < snd b.
Proof.
  intros ls. induction n as [|n IH]; intros i bs c b rest H Hb HL; cbn [seq map app] in H.
  - exfalso. assert (X : fst b = false) by (apply HL; rewrite H; apply in_or_app; right; right; left; reflexivity). congruence.
  - destruct bs as [|b0 bs]; cbn [app] in H; injection H as <- H.
    + destruct n as [|n]; cbn [seq map app] in H.
      * exfalso. assert (X : fst b = false) by (apply HL; rewrite H; left; reflexivity). congruence.
      * injection H as <- _. cbn [snd]. split; [f_equal; lia|lia].
    + destruct (IH _ _ _ _ _ H Hb HL) as [A1 A2]. split; [exact A1|lia].
Qed.
Lemma lefts_then : forall k i bs c b rest, map (fun i => (false, i - 1)) (rev (seq (i + 2) k)) = bs ++ c :: b :: rest ->
  fst b = false /\ c = (false, snd b + 1) /\ snd b + 1 <= i + k.
Proof.
  induction k as [|k IH]; intros i bs c b rest H; [destruct bs; discriminate|]. rewrite seq_S, rev_unit in H. cbn [map] in H.
  destruct bs as [|b0 bs]; cbn [app] in H; injection H as <- H.
  - destruct k as [|k]; [discriminate|]. rewrite seq_S, rev_unit in H. cbn [map] in H. injection H as <- _. cbn [fst snd]. split; [reflexivity|]. split; [f_equal; lia|lia].
  - destruct (IH _ _ _ _ _ H) as [A1 [A2 A3]]. split; [exact A1|]. split; [exact A2|lia].
Qed.
Lemma next_bond : forall lb rb bs c b rest, lb + 2 <= rb -> bonds lb rb = bs ++ c :: b :: rest -> snd b = (if fst c then snd c + 1 else snd c - 1) /\ lb <= snd c < rb /\ (fst c = false -> lb + 1 < snd c).
Proof.
  intros lb rb bs c b rest Hlr H.
  unfold bonds in H. remember (rb - 1 - lb) as n eqn:En. assert (X : forall n' i bs, n' <= n -> i + n' = rb - 1 -> map (fun i => (true, i)) (seq i n') ++ map (fun i => (false, i - 1)) (rev (seq (lb + 2) n)) = bs ++ c :: b :: rest ->
      snd b = (if fst c then snd c + 1 else snd c - 1) /\ lb <= snd c < rb /\ (fst c = false -> lb + 1 < snd c)).
  { clear H bs. induction n' as [|n' IH]; intros i bs Hn Hi H; cbn [seq map app] in H.
    - destruct (lefts_then _ _ _ _ _ _ H) as [A1 [A2 A3]]. subst c. cbn [fst snd].
      assert (I : In b (map (fun i => (false, i - 1)) (rev (seq (lb + 2) n)))) by (rewrite H; apply in_or_app; right; right; left; reflexivity).
      apply in_map_iff in I. destruct I as [x [<- I]]. rewrite <- in_rev in I. apply in_seq in I. cbn [snd] in *. lia.
    - destruct bs as [|b0 bs]; cbn [app] in H; injection H as <- H; [|apply (IH (S i) bs); [lia|lia|exact H]].
      destruct n' as [|n']; cbn [seq map app] in H; [|injection H as <- _; cbn [fst snd]; repeat split; try lia; discriminate].
      destruct n as [|n]; [lia|]. rewrite seq_S, rev_unit in H. cbn [map] in H. injection H as <- _. cbn [fst snd]. repeat split; try lia; discriminate. }
  apply (X n lb bs); [lia|lia|exact H].
Qed.

Section Crash.
Variables T C En : Type.
Variables (dT : T) (rows cols : nat -> nat) (trivc : side -> C) (growc : side -> nat -> list C -> T -> list C).
Variable solve : bool -> nat -> list C -> T -> T -> list C -> T * T * En.
Variables (canoL canoR : T -> T -> T * T) (bigL smallL bigR smallR : T -> bool) (combL combR : T -> T -> T * T).
Variables (bigL2 smallL2 bigR2 smallR2 : T -> bool) (combL2 combR2 : T -> T -> T * T).      (* bond dimensions of the second run *)
Variable dbg : bool.
Variable N : nat.
Hypothesis shape0 : rows 0 = 1.
Hypothesis shapeN : cols (N - 1) = 1.
Hypothesis shapeS : forall i, i + 1 < N -> cols i = rows (i + 1).
Hypothesis lenL : forall i g t, length g = rows i -> length (growc L i g t) = cols i.
Hypothesis lenR : forall i g t, length g = cols i -> length (growc R i g t) = rows i.
Notation opts := (opts T (list C) En (fun s => [trivc s]) growc solve N).
Notation opt := (opt T (list C) En (fun s => [trivc s]) growc solve N).
Notation W := (W T C En). Notation op := (op T C En). Notation stp := (stp T C En). Notation emg := (emg T C En). Notation clk := (clk T C En).
Notation dm := (dm T unit En). Notation mm := (mm T unit En). Notation nm := (nm T unit En). Notation eng := (eng T unit En).
Notation dst := (dst T C En).
Notation quiet := (fun _ : nat => (false, false)).
Notation run := (run T C En dT solve canoL canoR dbg).
Notation setG := (setG T C En). Notation getG := (getG T C En).
Notation write_group := (write_group T C En dbg).
Notation grow_group := (grow_group T C rows cols growc dbg).
Notation load_step := (load_step T C En dT rows cols solve canoL canoR dbg).
Notation update_step := (update_step T C En rows cols growc solve dbg).
Notation dump_step := (dump_step T C En dT solve canoL canoR dbg).
Notation step := (step T C En dT rows cols growc solve canoL canoR dbg).
Notation sweep_from := (sweep_from T C En dT rows cols growc solve canoL canoR dbg quiet).
Notation ready := (ready T C En N cols trivc growc canoL canoR bigL smallL bigR smallR combL combR).
Notation ready2 := (DmrgSpec.ready T C En N cols trivc growc canoL canoR bigL2 smallL2 bigR2 smallR2 combL2 combR2).
Notation executor := (executor T C En).
Notation prep2 := (NoiseSpec.prep T canoL canoR bigL2 smallL2 bigR2 smallR2 combL2 combR2 N).

(** tensor files stay *)
Definition kept (d d' : dst) : Prop := forall i, dm (W d) i <> None -> dm (W d') i <> None.
Lemma kept_trans : forall a b c, kept a b -> kept b c -> kept a c.
Proof. unfold kept. auto. Qed.
Lemma run_kept : forall p d d', run p d = Ok d' -> kept d d'.
Proof.
  intros p d d' H. unfold Dmrg.run in H. match type of H with bind ?o _ = _ => destruct o as [w| |] eqn:EX; cbn [bind] in H; try discriminate end. injection H as <-.
  unfold kept. cbn [Dmrg.W setW]. revert EX. generalize (W d) as v. induction p as [|c p IH]; intros v EX; cbn [Disk.exec] in EX; [injection EX as <-; auto|].
  match type of EX with bind ?o _ = _ => destruct o as [v1| |] eqn:E1; cbn [bind] in EX; try discriminate end.
  destruct (exec1_files T unit En dT tt (fun _ => tt) (fun _ _ _ _ => tt) canoL canoR (fun rt l _ a b _ => solve rt l [] a b []) dbg c v v1 E1) as [_ K].
  intros i Hi. apply (IH v1 EX). apply K. exact Hi.
Qed.
Lemma setG_kept : forall s i g d d', setG s i g d = Ok d' -> dm (W d') = dm (W d).
Proof. intros s i g d d' H. unfold Dmrg.setG in H. destruct (i <? nm (W d)); [|discriminate]. injection H as <-. destruct s; reflexivity. Qed.
Lemma write_kept : forall s n g d d', write_group s n g d = Ok d' -> dm (W d') = dm (W d).
Proof. intros s n g d d' H. unfold Dmrg.write_group in H. match type of H with bind ?o _ = _ => destruct o; cbn [bind] in H; try discriminate end. injection H as <-. reflexivity. Qed.
Ltac bnd H := repeat match type of H with
  | bind ?o _ = Ok _ => let E0 := fresh "B" in let x := fresh "x" in destruct o as [x| |] eqn:E0; cbn [bind] in H; try discriminate H
  end.
Ltac kp := repeat match goal with
  | H : run _ _ = Ok _ |- _ => apply run_kept in H
  | H : setG _ _ _ _ = Ok _ |- _ => apply setG_kept in H
  | H : write_group _ _ _ _ = Ok _ |- _ => apply write_kept in H
  end; unfold kept in *; intros;
  repeat match goal with H : dm (W ?a) = dm (W _) |- context [dm (W ?a)] => rewrite H end; auto.
Lemma load_kept : forall lb rb rt l d d', load_step lb rb rt l d = Ok d' -> kept d d'.
Proof.
  intros lb rb rt l d d' H. unfold Dmrg.load_step in H. destruct rt.
  - destruct (l =? lb); bnd H; injection H as <-; unfold kept; cbn [Dmrg.remove_group Dmrg.W set_op]; try (bnd B); kp.
  - destruct (l + 1 =? rb); bnd H; injection H as <-; unfold kept; cbn [Dmrg.remove_group Dmrg.W set_op]; try (bnd B); kp.
Qed.
Lemma update_kept : forall rt l d d', update_step rt l d = Ok d' -> dm (W d') = dm (W d).
Proof.
  intros rt l d d' H. unfold Dmrg.update_step in H. bnd H. match type of H with (if ?b then _ else _) = _ => destruct b; [discriminate|] end. bnd H.
  match type of H with (let '(_, _) := ?o in _) = _ => destruct o as [[a' b'] e] end. bnd H.
  match goal with X : Disk.putM T unit En l a' _ = Ok _ |- _ => apply putM_files in X; destruct X as (_ & X1 & _) end.
  match goal with X : Disk.putM T unit En (l + 1) b' _ = Ok _ |- _ => apply putM_files in X; destruct X as (_ & X2 & _) end.
  destruct rt; bnd H; repeat match goal with Q : setG _ _ _ _ = Ok _ |- _ => apply setG_kept in Q; cbn [Dmrg.W setW set_eng Disk.dm] in Q end; congruence.
Qed.
Lemma dump_kept : forall rt l d d', dump_step rt l d = Ok d' -> kept d d'.
Proof.
  intros rt l d d' H. unfold Dmrg.dump_step in H. bnd H. destruct rt; bnd H; kp.
  - match goal with Q : forall i, dm (W ?a) i <> None -> _ |- _ => apply Q end. congruence.
  - match goal with Q : forall i, dm (W ?a) i <> None -> _ |- _ => apply Q end. congruence.
Qed.
Lemma step_kept : forall lb rb b d d', step lb rb b d = Ok d' -> kept d d'.
Proof.
  intros lb rb [rt l] d d' H. unfold Dmrg.step in H. bnd H. apply load_kept in B. apply dump_kept in H. apply update_kept in B0.
  unfold kept in *. intros i Hi. apply H. rewrite B0. auto.
Qed.

Lemma quiet_poll : forall d, emg (poll T C En quiet d) = emg d /\ W (poll T C En quiet d) = W d /\ op (poll T C En quiet d) = op d.
Proof. intros d. unfold poll. cbn. rewrite !orb_false_r. auto. Qed.
(** an update writes one tensor file *)
Lemma run1_dm : forall c d d' j, run [c] d = Ok d' -> (forall r, c <> DumpM j r) -> dm (W d') j = dm (W d) j.
Proof.
  intros c d d' j H Q. unfold Dmrg.run in H. match type of H with bind ?o _ = _ => destruct o as [w| |] eqn:EX; cbn [bind] in H; try discriminate end. injection H as <-. cbn [Dmrg.W setW].
  cbn [Disk.exec] in EX. match type of EX with bind ?o _ = _ => destruct o as [v1| |] eqn:E1; cbn [bind] in EX; try discriminate end. injection EX as <-.
  exact (exec1_dm T unit En dT tt (fun _ => tt) (fun _ _ _ _ => tt) canoL canoR (fun rt l _ a b _ => solve rt l [] a b []) dbg c (W d) v1 j E1 Q).
Qed.
Lemma load_dm : forall lb rb rt l d d' j, load_step lb rb rt l d = Ok d' -> dm (W d') j = dm (W d) j.
Proof.
  intros lb rb rt l d d' j H. unfold Dmrg.load_step in H.
  destruct rt; [destruct (l =? lb)|destruct (l + 1 =? rb)]; bnd H; injection H as <-; cbn [Dmrg.remove_group Dmrg.W set_op]; try (bnd B);
    repeat match goal with
    | X : setG _ _ _ _ = Ok _ |- _ => apply setG_kept in X
    | X : run [LoadM _] _ = Ok _ |- _ => apply (run1_dm _ _ _ j) in X; [|intros; discriminate]
    end; congruence.
Qed.
Lemma step_right_dm : forall lb rb l d d' j, step lb rb (true, l) d = Ok d' -> j <> l -> dm (W d') j = dm (W d) j.
Proof.
  intros lb rb l d d' j H Hj. unfold Dmrg.step in H. bnd H. apply (load_dm _ _ _ _ _ _ j) in B. apply update_kept in B0.
  unfold Dmrg.dump_step in H. bnd H. apply write_kept in H.
  match goal with X : run [DumpM l true] _ = Ok _ |- _ => apply (run1_dm _ _ _ j) in X; [|intros r E; injection E; intros; subst; congruence] end. apply setG_kept in B1. apply setG_kept in B2. congruence.
Qed.
(** the tensor that an update finds in memory: that of the site shared with the update before it; it is not read from its file
    (dmrg_impl.h: LoadRelatedTensSweep_, from 396) *)
Definition inmem (lb rb : nat) (b : bool * nat) : nat :=
  let (rt, l) := b in if rt then (if l =? lb then l + 1 else l) else (if l + 1 =? rb then l else l + 1).
(** before an update on the way to the right there are only updates further left *)
Lemma rights_before : forall lb rb bs l rest, bonds lb rb = bs ++ (true, l) :: rest -> Forall (fun b => fst b = true /\ snd b < l) bs.
Proof.
  clear. intros lb rb. unfold bonds. generalize (rb - 1 - lb) at 1 as n. intros n. generalize (rev (seq (lb + 2) (rb - 1 - lb))) as ls. intros ls. revert lb.
  induction n as [|n IH]; intros i bs l rest H; cbn [seq map app] in H.
  - exfalso. assert (X : In (true, l) (map (fun i => (false, i - 1)) ls)) by (rewrite H; apply in_or_app; right; left; reflexivity).
    apply in_map_iff in X. destruct X as [x [X _]]. discriminate.
  - destruct bs as [|b bs]; [constructor|]. cbn [app] in H. injection H as <- H. constructor; [|apply (IH _ _ _ _ H)]. split; [reflexivity|]. cbn [snd].
    assert (X : In (true, l) (map (fun i => (true, i)) (seq (S i) n) ++ map (fun i => (false, i - 1)) ls)) by (rewrite H; apply in_or_app; right; left; reflexivity).
    apply in_app_or in X. destruct X as [X|X]; apply in_map_iff in X; destruct X as [x [X Y]]; [|discriminate]. injection X as ->. apply in_seq in Y. lia.
Qed.
Section Sweep.
Variables lb rb : nat.
Hypothesis Hlr : lb + 2 <= rb.
Hypothesis HrN : rb < N.
Notation pos := (pos T C En cols trivc growc N lb rb).
Notation point := (point T C En trivc growc N lb rb).
Lemma some_updates : forall bs rest ts e d, pos (bs ++ rest) ts d -> emg d = false ->
  exists d', sweep_from lb rb bs d = Ok d' /\ pos rest (fst (opts bs (ts, e))) d' /\ kept d d' /\ emg d' = false /\
    forall j, Forall (fun b => fst b = true /\ snd b < j) bs -> dm (W d') j = dm (W d) j.
Proof.
  induction bs as [|b bs IH]; intros rest ts e d HP HE.
  - exists d. cbn. split; [reflexivity|]. split; [exact HP|]. split; [intros i Hi; exact Hi|]. split; [exact HE|reflexivity].
  - cbn [app] in HP. destruct (step_pos T C En dT rows cols trivc growc solve canoL canoR dbg N shape0 shapeN shapeS lenL lenR lb rb Hlr HrN b (bs ++ rest) ts e d HP) as [d1 [A1 [A2 [A3 _]]]].
    cbn [Dmrg.sweep_from]. rewrite A1. cbn [bind]. destruct (quiet_poll d1) as [Q1 [Q2 Q3]]. destruct A2 as [_ [F2 _]].
    rewrite Q1, F2, HE. unfold SweepSpec.opts. cbn [fold_left].
    pose proof (pos_poll T C En cols trivc growc quiet N lb rb _ _ _ A3) as A4.
    destruct (IH rest (fst (opt b (ts, e))) (snd (opt b (ts, e))) (poll T C En quiet d1) A4) as [d2 [B1 [B2 [B3 [B4 B5]]]]]; [congruence|].
    exists d2. split; [exact B1|]. rewrite <- surjective_pairing in B2. split; [exact B2|]. split; [|split; [exact B4|]].
    + apply (kept_trans d d1 d2); [eapply step_kept; eauto|]. unfold kept in *. rewrite Q2 in B3. exact B3.
    + intros j HF. inversion HF as [|? ? [E1 E2] F3]; subst. destruct b as [rt l]. cbn [fst snd] in E1, E2. subst rt. rewrite (B5 j F3), Q2. apply (step_right_dm _ _ _ _ _ j A1). lia.
Qed.
(** the operators of the longest right block are missing as soon as the first update has loaded its data, until the last one writes its own *)
Lemma pos_loaded : forall b rest ts d, pos (b :: rest) ts d -> exists d', load_step lb rb (fst b) (snd b) d = Ok d' /\ nm (W d') = N /\
  dm (W d') = dm (W d) /\ (forall c, c < cols (lb + 1) -> op d' R (N - 2 - lb) c = None) /\ inmem lb rb b < N /\ (forall j, j < N -> j <> inmem lb rb b -> dm (W d) j = Some (ts j)).
Proof.
  intros b rest ts d [[i [k [A1 [A2 [A3 A4]]]]]|[k [A1 [A2 A3]]]].
  - destruct k as [|k].
    + cbn [seq map app] in A3. replace i with (rb - 1) in A4 by lia. apply (turn T C En rows cols trivc growc N shape0 shapeN lb rb Hlr HrN) in A4. destruct (rb - 1 - lb) as [|k] eqn:EK; [lia|].
      rewrite seq_S, rev_unit in A3. cbn [map] in A3. inversion A3; subst b rest. replace (lb + 2 + k) with rb in * by lia. cbn [fst snd].
      destruct (load_left_ok T C En dT rows cols trivc growc solve canoL canoR dbg N shape0 shapeN shapeS lenL lenR lb rb Hlr HrN ts rb d ltac:(lia) ltac:(lia) A4) as [d' [B1 [B2 [B3 [B4 [B5 [B6 B7]]]]]]].
      exists d'. split; [exact B1|]. split; [apply (ld_nm _ _ _ _ _ _ _ _ _ B3)|]. split; [exact B4|]. destruct A4 as [A4 [A5 A6]]. split; [intros c Hc; rewrite B7 by auto; apply A6; auto; lia|].
      rewrite Nat.eqb_refl in A4. unfold inmem. replace (rb - 1 + 1) with rb by lia. rewrite Nat.eqb_refl. split; [lia|]. apply (pt_dm _ _ _ _ _ _ _ _ _ _ _ _ _ A4).
    + cbn [seq map app] in A3. inversion A3; subst b rest. cbn [fst snd].
      destruct (load_right_ok T C En dT rows cols trivc growc solve canoL canoR dbg N shape0 shapeN shapeS lenL lenR lb rb Hlr HrN ts i d A1 ltac:(lia) A4) as [d' [B1 [B2 [B3 [B4 [B5 [B6 [B7 B8]]]]]]]].
      exists d'. split; [exact B1|]. split; [apply (ld_nm _ _ _ _ _ _ _ _ _ B3)|]. split; [exact B4|]. destruct A4 as [A4 [A5 A6]]. split.
      { intros c Hc. destruct (Nat.eq_dec i lb) as [->|Hi]; [apply B8; auto|]. rewrite B7 by (right; lia). apply A6; auto. lia. }
      unfold inmem. destruct (Nat.eqb_spec i lb) as [->|Hi]; (split; [lia|]); apply (pt_dm _ _ _ _ _ _ _ _ _ _ _ _ _ A4).
  - destruct k as [|k]; [discriminate|]. rewrite seq_S, rev_unit in A2. cbn [map] in A2. inversion A2; subst b rest. replace (lb + 2 + k) with (lb + 1 + S k) in * by lia. cbn [fst snd].
    destruct (load_left_ok T C En dT rows cols trivc growc solve canoL canoR dbg N shape0 shapeN shapeS lenL lenR lb rb Hlr HrN ts (lb + 1 + S k) d ltac:(lia) ltac:(lia) A3) as [d' [B1 [B2 [B3 [B4 [B5 [B6 B7]]]]]]].
    exists d'. split; [exact B1|]. split; [apply (ld_nm _ _ _ _ _ _ _ _ _ B3)|]. split; [exact B4|]. destruct A3 as [A4 [A5 A6]]. split; [intros c Hc; rewrite B7 by auto; apply A6; auto; lia|].
    unfold inmem. replace (lb + 1 + S k - 1 + 1) with (lb + 1 + S k) by lia. destruct (Nat.eqb_spec (lb + 1 + S k) rb) as [Hi|Hi]; (split; [lia|]).
    + replace (lb + 1 + S k - 1) with (rb - 1) by lia. apply (pt_dm _ _ _ _ _ _ _ _ _ _ _ _ _ A4).
    + apply (pt_dm _ _ _ _ _ _ _ _ _ _ _ _ _ A4).
Qed.
End Sweep.

(** *** whole runs *)
Notation sweeps_spec := (sweeps_spec T (list C) En (fun s => [trivc s]) growc solve N).
Notation sweeps := (sweeps T C En dT rows cols growc solve canoL canoR dbg).
Notation dmrg_init := (dmrg_init T C En dT rows cols trivc growc solve canoL canoR bigL smallL bigR smallR combL combR dbg).
Notation execute2 := (Dmrg.execute T C En dT rows cols trivc growc solve canoL canoR bigL2 smallL2 bigR2 smallR2 combL2 combR2 dbg).
(** a process that starts after another one died: the files of that one, nothing else (dmrg_impl.h: constructor of DMRGExecutor); no signal
    received yet (473-476) *)
Definition new_process (N : nat) (d : dst) : dst :=
  mkD T C En (mkW T unit En N fnone 0 fnone fnone None None (dm (W d)) fnone fnone (tmp T unit En (W d))) (fun _ => []) (fun _ => []) (op d) false false 0.

Lemma sweep_from_kept : forall lb rb bs d d', sweep_from lb rb bs d = Ok d' -> kept d d'.
Proof.
  intros lb rb. induction bs as [|b bs IH]; intros d d' H; cbn [Dmrg.sweep_from] in H; [injection H as <-; intros i Hi; exact Hi|].
  bnd H. apply step_kept in B. destruct (quiet_poll x) as [_ [Q2 _]]. assert (K : kept (poll T C En quiet x) d').
  { destruct (emg (poll T C En quiet x)); [|apply (IH _ _ H)]. unfold Dmrg.emergency in H. destruct b as [[] l]; apply run_kept in H; exact H. }
  apply (kept_trans d x d' B). unfold kept in *. rewrite Q2 in K. exact K.
Qed.
Lemma sweeps_kept : forall lb rb n d d', sweeps quiet lb rb n d = Ok d' -> kept d d'.
Proof.
  intros lb rb. induction n as [|n IH]; intros d d' H; cbn [Dmrg.sweeps] in H; [injection H as <-; intros i Hi; exact Hi|].
  bnd H. apply sweep_from_kept in B. apply (kept_trans d x d' B). destruct (quiet_poll x) as [_ [Q2 _]].
  destruct (quiet_poll (poll T C En quiet x)) as [_ [Q3 _]]. destruct (Dmrg.stp T C En (poll T C En quiet x)); [injection H as <-; unfold kept; rewrite Q2; auto|].
  destruct (Dmrg.emg T C En (poll T C En quiet (poll T C En quiet x))); [injection H as <-; unfold kept; rewrite Q3, Q2; auto|].
  apply IH in H. unfold kept in *. rewrite Q3, Q2 in H. exact H.
Qed.
Lemma all_quiet : forall lb rb n ts d, lb + 2 <= rb -> rb < N -> rpoint T C En cols trivc growc N lb rb ts lb d -> stp d = false -> emg d = false ->
  exists d', sweeps quiet lb rb n d = Ok d' /\ rpoint T C En cols trivc growc N lb rb (fst (sweeps_spec lb rb n (ts, eng (W d)))) lb d' /\ emg d' = false.
Proof.
  intros lb rb n ts d Hlr HrN HP PS PE.
  destruct (sweeps_ok T C En dT rows cols trivc growc solve canoL canoR dbg quiet N shape0 shapeN shapeS lenL lenR lb rb Hlr HrN (clk d) false false n 0 ts (eng (W d)) d)
    as [[m [d' [C1 [C2 [C3 [C4 [C5 [C6 [C7 [C8 [C9 C10]]]]]]]]]]]|[m [j [d' [C1 [C2 [C3 _]]]]]]].
  - exact HP.
  - split; [auto|]. split; (split; [intros E; congruence|intros [E|[u [_ E]]]; discriminate]).
  - auto.
  - unfold tm. lia.
  - exists d'. assert (M : m = n).
    { destruct C10 as [[M _]|[[_ [[V|[u [_ V]]] _]]|[_ [_ [[V|[u [_ V]]] _]]]]]; [auto| | | |]; discriminate. }
    subst m. split; [exact C3|]. split; [exact C4|]. destruct (emg d') eqn:EE; [|reflexivity]. destruct C7 as [_ [[V _] _]]. destruct (V EE) as [V'|[u [_ V']]]; discriminate.
  - destruct C3 as [V|[u [_ V]]]; discriminate.
Qed.
Lemma started0 : forall ts ts0 lb rb d, ready ts ts0 lb rb d -> stp d = false -> emg d = false ->
  exists d0 d1, dmrg_init d = Ok (lb, rb, d0) /\ run [LoadM (lb + 1)] d0 = Ok d1 /\ rpoint T C En cols trivc growc N lb rb ts0 lb d1 /\
    (forall i, i < N -> dm (W d1) i = Some (ts0 i)) /\ stp d1 = false /\ emg d1 = false.
Proof.
  intros ts ts0 lb rb d R PS PE.
  destruct (ready_range T C En rows cols trivc growc canoL canoR bigL smallL bigR smallR combL combR N shape0 shapeN _ _ _ _ _ R) as [Hlr HrN]. destruct R as [H3 [HP [H1 [HM [HD HF]]]]].
  destruct (dmrg_init_ok T C En dT rows cols trivc growc solve canoL canoR bigL smallL bigR smallR combL combR dbg N shape0 shapeN shapeS lenL lenR lb rb Hlr HrN ts ts0 d H3 HP H1 HM HD HF) as [d0 [A1 [A2 [A3 [A4 [A5 [_ [A6 A7]]]]]]]].
  destruct A5 as [F1 [F2 F3]].
  exists d0, (setW T C En (set_mm T unit En (fset (mm (W d0)) (lb + 1) (Some (ts0 (lb + 1)))) (W d0)) d0). split; [exact A1|]. split.
  { apply run_exec. rewrite (ex_LoadM _ _ _ _ _ _ _ _ _ _ _ _ _ _ (ts0 (lb + 1))); [reflexivity|lia|apply A3; lia]. }
  split; [|split; [intros i Hi; cbn; apply A3; exact Hi|cbn; split; congruence]].
  split; [|split; intros; lia]. rewrite Nat.eqb_refl. constructor; cbn; auto.
  - intros j Hj. unfold fset. destruct (Nat.eqb_spec j (lb + 1)) as [->|]; [reflexivity|apply A4; auto].
  - intros k Hk. replace k with lb by lia. auto.
Qed.
Lemma started : forall ts ts0 lb rb d, ready ts ts0 lb rb d -> stp d = false -> emg d = false ->
  exists d0 d1, dmrg_init d = Ok (lb, rb, d0) /\ run [LoadM (lb + 1)] d0 = Ok d1 /\ rpoint T C En cols trivc growc N lb rb ts0 lb d1 /\
    (forall i, i < N -> dm (W d1) i <> None) /\ stp d1 = false /\ emg d1 = false.
Proof.
  intros ts ts0 lb rb d R PS PE. destruct (started0 _ _ _ _ _ R PS PE) as [d0 [d1 [A1 [A2 [A3 [A4 [A5 A6]]]]]]]. exists d0, d1.
  do 3 (split; [assumption|]). split; [intros i Hi; rewrite A4 by exact Hi; discriminate|auto].
Qed.

Theorem dies_updating : forall k ts ts0 lb rb d bs b rest, ready ts ts0 lb rb d -> stp d = false -> emg d = false -> 0 < cols (lb + 1) ->
  bonds lb rb = bs ++ b :: rest ->
  exists d0 d1 d2 d3 d4 t, dmrg_init d = Ok (lb, rb, d0) /\ run [LoadM (lb + 1)] d0 = Ok d1 /\ sweeps quiet lb rb k d1 = Ok d2 /\
    sweep_from lb rb bs d2 = Ok d3 /\ load_step lb rb (fst b) (snd b) d3 = Ok d4 /\
    (fst b = true -> lb + 1 < snd b -> t = fst (sweeps_spec lb rb k (ts0, None)) (snd b)) /\
    let cs := fset (fst (opts bs (sweeps_spec lb rb k (ts0, None)))) (inmem lb rb b) t in
    on_disk T unit En N cs (W (new_process N d4)) /\
    forall lb' rb' cs1, prep2 cs = (lb', rb', cs1) -> lb' <= lb -> ready2 cs cs1 lb' rb' (new_process N d4) /\
    forall n, exists d5, execute2 quiet n (new_process N d4) = Ok d5 /\ complete T C En N (center_to_0 T canoR (lb' + 1) (fst (sweeps_spec lb' rb' n (cs1, None)))) d5.
Proof.
  intros k ts ts0 lb rb d bs b rest RD PS PE HC HO.
  destruct (ready_range T C En rows cols trivc growc canoL canoR bigL smallL bigR smallR combL combR N shape0 shapeN _ _ _ _ _ RD) as [HB HRB].
  destruct (started _ _ _ _ _ RD PS PE) as [d0 [d1 [S1 [S2 [S3 [S4 [S5 S6]]]]]]].
  destruct (all_quiet lb rb k ts0 d1 HB HRB S3 S5 S6) as [d2 [Q1 [Q2 Q3]]]. pose proof (sweeps_kept _ _ _ _ _ Q1) as Q4.
  rewrite (proj1 (sweeps_e T C En rows cols trivc growc solve N shape0 shapeN lb rb HB HRB k ts0 (eng (W d1)) None)) in Q2.
  set (s := sweeps_spec lb rb k (ts0, None)) in *.
  assert (P0 : pos T C En cols trivc growc N lb rb (bs ++ b :: rest) (fst s) d2).
  { rewrite <- HO. left. exists lb, (rb - 1 - lb). split; [lia|]. split; [lia|]. split; [reflexivity|exact Q2]. }
  destruct (some_updates lb rb HB HRB bs (b :: rest) (fst s) (snd s) d2 P0 Q3) as [d3 [A1 [A2 [A3 [A4 A5]]]]]. rewrite <- surjective_pairing in A2.
  destruct (pos_loaded lb rb HB HRB b rest _ d3 A2) as [d4 [B1 [B2 [B3 [B4 [B5 B6]]]]]].
  destruct (dm (W d3) (inmem lb rb b)) as [t|] eqn:EH; [|exfalso; apply (A3 (inmem lb rb b)); [apply Q4; apply S4; exact B5|exact EH]].
  exists d0, d1, d2, d3, d4, t. do 5 (split; [assumption|]). split.
  { intros E1 E2. destruct b as [rt l]. cbn [fst snd] in *. subst rt. assert (EI : inmem lb rb (true, l) = l) by (unfold inmem; destruct (Nat.eqb_spec l lb); lia).
    rewrite EI in *. rewrite (A5 l) in EH by (apply (rights_before lb rb bs l rest HO)). destruct Q2 as [Q2 _]. rewrite Nat.eqb_refl in Q2.
    rewrite (pt_dm _ _ _ _ _ _ _ _ _ _ _ _ _ Q2 l) in EH by lia. congruence. }
  cbv zeta.
  match goal with |- on_disk _ _ _ _ ?c _ /\ _ => set (cs := c) end.
  assert (OD : on_disk T unit En N cs (W (new_process N d4))).
  { intros i Hi. cbn. rewrite B3. unfold cs, fset. destruct (Nat.eqb_spec i (inmem lb rb b)) as [->|]; [exact EH|]. apply B6; auto. }
  split; [exact OD|]. intros lb' rb' cs1 EP HLL. destruct RD as [H3 [HP _]].
  assert (RD' : ready2 cs cs1 lb' rb' (new_process N d4)).
  { destruct (prep_range T canoL canoR bigL2 smallL2 bigR2 smallR2 combL2 combR2 N _ _ _ _ H3 EP) as [R1 R2].
    destruct (prep_range T canoL canoR bigL smallL bigR smallR combL combR N _ _ _ _ H3 HP) as [R3 R4]. destruct (half_bounds N H3) as [X1 [X2 [X3 X4]]].
    split; [exact H3|]. split; [exact EP|]. split; [reflexivity|]. split; [intros i _; reflexivity|]. split; [exact OD|].
    intros _ HA. exfalso. apply (HA (N - 2 - lb) 0).
    - lia.
    - replace (N - 1 - (N - 2 - lb)) with (lb + 1) by lia. exact HC.
    - cbn. apply B4. exact HC. }
  split; [exact RD'|]. intros n.
  destruct (no_emg_run T C En dT rows cols trivc growc solve canoL canoR bigL2 smallL2 bigR2 smallR2 combL2 combR2 dbg N shape0 shapeN shapeS lenL lenR quiet n _ _ _ _ _ RD') as [m [d5 [C1 [C2 [_ [_ [_ [_ C3]]]]]]]].
  - split; [reflexivity|]. intros; reflexivity.
  - exists d5. split; [exact C1|]. destruct C3 as [->|[_ [V|[u [_ V]]]]]; [exact C2|discriminate|discriminate].
Qed.
(** *** death while an update writes *)
(** DumpRelatedTensSweep_, dmrg_impl.h 344-372, up to and with the dump of the tensor *)
Definition dump_tensor (rt : bool) (l : nat) (d : dst) : res dst :=
  let! x := setG L l [] d in
  let! x := setG R (nm (W d) - 1 - (l + 1)) [] x in
  run [DumpM (if rt then l else l + 1) true] x.
(** the side and length of the block operators written next *)
Definition writes (N : nat) (b : bool * nat) : side * nat := if fst b then (L, snd b + 1) else (R, N - 1 - snd b).
(** the first m operators of the block are written: WriteOperatorGroup, operator_io.h 34-45; any content *)
Definition part_written (N : nat) (b : bool * nat) (m : nat) (g : nat -> C) (d : dst) : dst :=
  set_op T C En (fun s n c => if sideb (fst (writes N b)) s && (n =? snd (writes N b)) && (c <? m) then Some (g c) else op d s n c) d.
Lemma setG_op : forall s i g d d', setG s i g d = Ok d' -> op d' = op d /\ nm (W d') = nm (W d).
Proof. intros s i g d d' H. unfold Dmrg.setG in H. destruct (i <? nm (W d)); [|discriminate]. injection H as <-. destruct s; auto. Qed.
Lemma run_op : forall p d d', run p d = Ok d' -> op d' = op d.
Proof. intros p d d' H. unfold Dmrg.run in H. match type of H with bind ?o _ = _ => destruct o; cbn [bind] in H; try discriminate end. injection H as <-. reflexivity. Qed.
Lemma update_op : forall rt l d d', update_step rt l d = Ok d' -> op d' = op d.
Proof.
  intros rt l d d' H. unfold Dmrg.update_step in H. bnd H. match type of H with (if ?b then _ else _) = _ => destruct b; [discriminate|] end. bnd H.
  match type of H with (let '(_, _) := ?o in _) = _ => destruct o as [[a' b'] e] end. bnd H.
  destruct rt; bnd H; repeat match goal with Q : setG _ _ _ _ = Ok _ |- _ => apply setG_op in Q; destruct Q as [Q _]; cbn [Dmrg.op setW] in Q end; congruence.
Qed.
Lemma dump_parts : forall rt l d d', dump_step rt l d = Ok d' -> exists x, dump_tensor rt l d = Ok x /\ dm (W x) = dm (W d') /\ op x = op d.
Proof.
  intros rt l d d' H. unfold Dmrg.dump_step in H. unfold dump_tensor.
  destruct (setG L l [] d) as [x1| |] eqn:E1; cbn [bind] in *; try discriminate.
  destruct (setG R (nm (W d) - 1 - (l + 1)) [] x1) as [x2| |] eqn:E2; cbn [bind] in *; try discriminate.
  apply setG_op in E1. apply setG_op in E2. destruct E1 as [E1 _], E2 as [E2 _].
  destruct rt; bnd H; apply write_kept in H.
  - exists x. split; [reflexivity|]. split; [congruence|]. apply run_op in B. congruence.
  - exists x. split; [reflexivity|]. split; [congruence|]. apply run_op in B. congruence.
Qed.
Lemma last_update : forall lb rb bs l rest, lb + 2 <= rb -> bonds lb rb = bs ++ (false, l) :: rest -> rest <> [] -> lb + 1 < l < rb.
Proof.
  clear. intros lb rb bs l rest Hlr H HR. destruct rest as [|c rest]; [congruence|]. clear HR. unfold bonds in H. remember (rb - 1 - lb) as k eqn:Ek.
  assert (X : forall n i bs, map (fun i => (true, i)) (seq i n) ++ map (fun i => (false, i - 1)) (rev (seq (lb + 2) k)) = bs ++ (false, l) :: c :: rest -> lb + 1 < l < rb).
  { clear H bs. induction n as [|n IH]; intros i bs H; cbn [seq map app] in H; [|destruct bs as [|b0 bs]; [discriminate|]; cbn [app] in H; injection H as _ H; eauto].
    assert (Y : forall k bs, map (fun i => (false, i - 1)) (rev (seq (lb + 2) k)) = bs ++ (false, l) :: c :: rest -> lb + 1 < l /\ l < lb + 1 + k).
    { clear. induction k as [|k IH]; intros bs H; [destruct bs; discriminate|]. rewrite seq_S, rev_unit in H. cbn [map] in H.
      destruct bs as [|b0 bs]; cbn [app] in H; [injection H as <- H; destruct k; [discriminate|lia]|]. injection H as _ H. apply IH in H. lia. }
    apply Y in H. lia. }
  eapply X. exact H.
Qed.
Theorem dies_writing : forall k ts ts0 lb rb d bs b rest m g, ready ts ts0 lb rb d -> stp d = false -> emg d = false -> 0 < cols (lb + 1) ->
  bonds lb rb = bs ++ b :: rest -> (rest = [] -> m < cols (lb + 1)) ->
  exists d0 d1 d2 d3 d4 d5 d6 t, dmrg_init d = Ok (lb, rb, d0) /\ run [LoadM (lb + 1)] d0 = Ok d1 /\ sweeps quiet lb rb k d1 = Ok d2 /\
    sweep_from lb rb bs d2 = Ok d3 /\ load_step lb rb (fst b) (snd b) d3 = Ok d4 /\ update_step (fst b) (snd b) d4 = Ok d5 /\ dump_tensor (fst b) (snd b) d5 = Ok d6 /\
    let d7 := part_written N b m g d6 in
    let cs := fset (fst (opts (bs ++ [b]) (sweeps_spec lb rb k (ts0, None)))) (if fst b then snd b + 1 else snd b) t in
    on_disk T unit En N cs (W (new_process N d7)) /\
    forall lb' rb' cs1, prep2 cs = (lb', rb', cs1) -> lb' <= lb -> ready2 cs cs1 lb' rb' (new_process N d7) /\
    forall n, exists d8, execute2 quiet n (new_process N d7) = Ok d8 /\ complete T C En N (center_to_0 T canoR (lb' + 1) (fst (sweeps_spec lb' rb' n (cs1, None)))) d8.
Proof.
  intros k ts ts0 lb rb d bs b rest m g RD PS PE HC HO HM.
  destruct (ready_range T C En rows cols trivc growc canoL canoR bigL smallL bigR smallR combL combR N shape0 shapeN _ _ _ _ _ RD) as [HB HRB].
  destruct (started _ _ _ _ _ RD PS PE) as [d0 [d1 [S1 [S2 [S3 [S4 [S5 S6]]]]]]].
  destruct (all_quiet lb rb k ts0 d1 HB HRB S3 S5 S6) as [d2 [Q1 [Q2 Q3]]]. pose proof (sweeps_kept _ _ _ _ _ Q1) as Q4.
  rewrite (proj1 (sweeps_e T C En rows cols trivc growc solve N shape0 shapeN lb rb HB HRB k ts0 (eng (W d1)) None)) in Q2.
  set (s := sweeps_spec lb rb k (ts0, None)) in *.
  assert (P0 : pos T C En cols trivc growc N lb rb (bs ++ b :: rest) (fst s) d2).
  { rewrite <- HO. left. exists lb, (rb - 1 - lb). split; [lia|]. split; [lia|]. split; [reflexivity|exact Q2]. }
  destruct (some_updates lb rb HB HRB bs (b :: rest) (fst s) (snd s) d2 P0 Q3) as [d3 [A1 [A2 [A3 [A4 A5]]]]]. rewrite <- surjective_pairing in A2.
  destruct (pos_loaded lb rb HB HRB b rest _ d3 A2) as [d4 [B1 [B2 [B3 [B4 _]]]]].
  destruct (step_pos T C En dT rows cols trivc growc solve canoL canoR dbg N shape0 shapeN shapeS lenL lenR lb rb HB HRB b rest _ (snd (opts bs s)) d3 A2) as [d9 [E1 [_ [_ [[lhi [rhi E2]] [E3 _]]]]]].
  pose proof (step_kept _ _ _ _ _ E1) as EK. destruct b as [rt l]. unfold Dmrg.step in E1. cbn [fst snd] in *. rewrite B1 in E1. cbn [bind] in E1.
  destruct (update_step rt l d4) as [d5| |] eqn:EU; cbn [bind] in E1; try discriminate.
  destruct (dump_parts _ _ _ _ E1) as [d6 [D1 [D2 D3]]].
  assert (HH : held (rt, l) = if rt then l + 1 else l) by reflexivity. rewrite HH in *.
  set (h := if rt then l + 1 else l) in *.
  destruct (dm (W d9) h) as [t|] eqn:EH; [|exfalso; apply (EK h); [apply A3; apply Q4; apply S4; exact E3|exact EH]].
  exists d0, d1, d2, d3, d4, d5, d6, t. do 7 (split; [assumption|]). cbv zeta.
  match goal with |- on_disk _ _ _ _ ?c _ /\ _ => set (cs := c) end.
  assert (OD : on_disk T unit En N cs (W (new_process N (part_written N (rt, l) m g d6)))).
  { intros i Hi. cbn. rewrite D2. unfold cs, fset. destruct (Nat.eqb_spec i h) as [->|]; [exact EH|]. 
    unfold SweepSpec.opts. rewrite fold_left_app. cbn [fold_left]. rewrite <- surjective_pairing in E2. apply (pt_dm _ _ _ _ _ _ _ _ _ _ _ _ _ E2); auto. }
  split; [exact OD|]. intros lb' rb' cs1 EP HLL. destruct RD as [H3 [HP _]].
  assert (RD' : ready2 cs cs1 lb' rb' (new_process N (part_written N (rt, l) m g d6))).
  { destruct (prep_range T canoL canoR bigL2 smallL2 bigR2 smallR2 combL2 combR2 N _ _ _ _ H3 EP) as [R1 R2].
    destruct (prep_range T canoL canoR bigL smallL bigR smallR combL combR N _ _ _ _ H3 HP) as [R3 R4]. destruct (half_bounds N H3) as [X1 [X2 [X3 X4]]].
    split; [exact H3|]. split; [exact EP|]. split; [reflexivity|]. split; [intros i _; reflexivity|]. split; [exact OD|].
    intros _ HA. exfalso. assert (M : exists c, c < cols (lb + 1) /\ op (part_written N (rt, l) m g d6) R (N - 2 - lb) c = None).
    { apply update_op in EU. destruct rest as [|c rest].
      - exists m. specialize (HM eq_refl). split; [exact HM|]. cbn [part_written Dmrg.op set_op]. rewrite Nat.ltb_irrefl, andb_false_r, D3, EU. apply B4. exact HM.
      - exists 0. split; [exact HC|]. cbn [part_written Dmrg.op set_op]. unfold writes. cbn [fst snd]. destruct rt; cbn [fst snd sideb andb]; [rewrite D3, EU; apply B4; exact HC|].
        destruct (last_update lb rb bs l (c :: rest) HB HO ltac:(discriminate)) as [L1 L2]. destruct (Nat.eqb_spec (N - 2 - lb) (N - 1 - l)); [lia|]. cbn [andb]. rewrite D3, EU. apply B4. exact HC. }
    destruct M as [c [M1 M2]]. apply (HA (N - 2 - lb) c).
    - lia.
    - replace (N - 1 - (N - 2 - lb)) with (lb + 1) by lia. exact M1.
    - exact M2. }
  split; [exact RD'|]. intros n.
  destruct (no_emg_run T C En dT rows cols trivc growc solve canoL canoR bigL2 smallL2 bigR2 smallR2 combL2 combR2 dbg N shape0 shapeN shapeS lenL lenR quiet n _ _ _ _ _ RD') as [q [d8 [C1 [C2 [_ [_ [_ [_ C3]]]]]]]].
  - split; [reflexivity|]. intros; reflexivity.
  - exists d8. split; [exact C1|]. destruct C3 as [->|[_ [V|[u [_ V]]]]]; [exact C2|discriminate|discriminate].
Qed.
(** *** death while an update loads *)
(** the side and length of the group that an update reads and removes *)
Definition takes (N : nat) (b : bool * nat) : side * nat := if fst b then (R, N - 1 - (snd b + 1)) else (L, snd b).
(** the first m operators are read and removed, the others still there: ReadAndRemoveOperatorGroup, operator_io.h 64-77 *)
Definition part_removed (N : nat) (b : bool * nat) (m : nat) (d : dst) : dst :=
  set_op T C En (fun s n c => if sideb (fst (takes N b)) s && (n =? snd (takes N b)) && (c <? m) then None else op d s n c) d.
Lemma load_op : forall lb rb rt l d d' n c, load_step lb rb rt l d = Ok d' -> (rt = true -> n <> nm (W d) - 1 - (l + 1)) -> op d' R n c = op d R n c.
Proof.
  intros lb rb rt l d d' n c H HN. unfold Dmrg.load_step in H.
  destruct rt; [destruct (l =? lb)|destruct (l + 1 =? rb)]; bnd H; injection H as <-; try (bnd B); cbn [Dmrg.remove_group Dmrg.op set_op sideb andb];
    repeat match goal with
    | X : setG _ _ _ _ = Ok _ |- _ => apply setG_op in X; destruct X as [X _]
    | X : run _ _ = Ok _ |- _ => apply run_op in X
    end; try (destruct (Nat.eqb_spec n (nm (W d) - 1 - (l + 1))) as [E|E]; [exfalso; apply (HN eq_refl E)|]); cbn [andb]; congruence.
Qed.
Lemma pos_nm : forall lb rb bs ts d, pos T C En cols trivc growc N lb rb bs ts d -> nm (W d) = N.
Proof. intros lb rb bs ts d [[i [k [A1 [A2 [A3 [A4 _]]]]]]|[k [A1 [A2 [A3 _]]]]]; [apply (pt_nm _ _ _ _ _ _ _ _ _ _ _ _ _ A4)|apply (pt_nm _ _ _ _ _ _ _ _ _ _ _ _ _ A3)]. Qed.
Theorem dies_loading : forall k ts ts0 lb rb d bs b rest m, ready ts ts0 lb rb d -> stp d = false -> emg d = false -> 0 < cols (lb + 1) ->
  bonds lb rb = bs ++ b :: rest -> (b = (true, lb) -> 0 < m) ->
  exists d0 d1 d2 d3 t, dmrg_init d = Ok (lb, rb, d0) /\ run [LoadM (lb + 1)] d0 = Ok d1 /\ sweeps quiet lb rb k d1 = Ok d2 /\
    sweep_from lb rb bs d2 = Ok d3 /\
    let d4 := part_removed N b m d3 in
    let cs := fset (fst (opts bs (sweeps_spec lb rb k (ts0, None)))) (inmem lb rb b) t in
    on_disk T unit En N cs (W (new_process N d4)) /\
    forall lb' rb' cs1, prep2 cs = (lb', rb', cs1) -> lb' <= lb -> ready2 cs cs1 lb' rb' (new_process N d4) /\
    forall n, exists d5, execute2 quiet n (new_process N d4) = Ok d5 /\ complete T C En N (center_to_0 T canoR (lb' + 1) (fst (sweeps_spec lb' rb' n (cs1, None)))) d5.
Proof.
  intros k ts ts0 lb rb d bs b rest m RD PS PE HC HO HM.
  destruct (ready_range T C En rows cols trivc growc canoL canoR bigL smallL bigR smallR combL combR N shape0 shapeN _ _ _ _ _ RD) as [HB HRB].
  destruct (started _ _ _ _ _ RD PS PE) as [d0 [d1 [S1 [S2 [S3 [S4 [S5 S6]]]]]]].
  destruct (all_quiet lb rb k ts0 d1 HB HRB S3 S5 S6) as [d2 [Q1 [Q2 Q3]]]. pose proof (sweeps_kept _ _ _ _ _ Q1) as Q4.
  rewrite (proj1 (sweeps_e T C En rows cols trivc growc solve N shape0 shapeN lb rb HB HRB k ts0 (eng (W d1)) None)) in Q2.
  set (s := sweeps_spec lb rb k (ts0, None)) in *.
  assert (P0 : pos T C En cols trivc growc N lb rb (bs ++ b :: rest) (fst s) d2).
  { rewrite <- HO. left. exists lb, (rb - 1 - lb). split; [lia|]. split; [lia|]. split; [reflexivity|exact Q2]. }
  destruct (some_updates lb rb HB HRB bs (b :: rest) (fst s) (snd s) d2 P0 Q3) as [d3 [A1 [A2 [A3 [A4 A5]]]]]. rewrite <- surjective_pairing in A2.
  pose proof (pos_nm _ _ _ _ _ A2) as NM.
  destruct (pos_loaded lb rb HB HRB b rest _ d3 A2) as [d4 [B1 [B2 [B3 [B4 [B5 B6]]]]]].
  destruct (dm (W d3) (inmem lb rb b)) as [t|] eqn:EH; [|exfalso; apply (A3 (inmem lb rb b)); [apply Q4; apply S4; exact B5|exact EH]].
  exists d0, d1, d2, d3, t. do 4 (split; [assumption|]). cbv zeta.
  match goal with |- on_disk _ _ _ _ ?c _ /\ _ => set (cs := c) end.
  assert (OD : on_disk T unit En N cs (W (new_process N (part_removed N b m d3)))).
  { intros i Hi. cbn. unfold cs, fset. destruct (Nat.eqb_spec i (inmem lb rb b)) as [->|]; [exact EH|]. apply B6; auto. }
  split; [exact OD|]. intros lb' rb' cs1 EP HLL. destruct RD as [H3 [HP _]].
  assert (RD' : ready2 cs cs1 lb' rb' (new_process N (part_removed N b m d3))).
  { destruct (prep_range T canoL canoR bigL2 smallL2 bigR2 smallR2 combL2 combR2 N _ _ _ _ H3 EP) as [R1 R2].
    destruct (prep_range T canoL canoR bigL smallL bigR smallR combL combR N _ _ _ _ H3 HP) as [R3 R4]. destruct (half_bounds N H3) as [X1 [X2 [X3 X4]]].
    split; [exact H3|]. split; [exact EP|]. split; [reflexivity|]. split; [intros i _; reflexivity|]. split; [exact OD|].
    intros _ HA. exfalso. apply (HA (N - 2 - lb) 0).
    - lia.
    - replace (N - 1 - (N - 2 - lb)) with (lb + 1) by lia. exact HC.
    - cbn [new_process Dmrg.op part_removed set_op]. destruct b as [rt l]. cbn [fst snd] in *.
      assert (IB : rt = true -> lb <= l < rb - 1).
      { intros ->. assert (I : In (true, l) (bonds lb rb)) by (rewrite HO; apply in_or_app; right; left; reflexivity). unfold bonds in I. apply in_app_or in I.
        destruct I as [I|I]; apply in_map_iff in I; destruct I as [x [I1 I2]]; [|discriminate]. injection I1 as ->. apply in_seq in I2. lia. }
      assert (OR : ~ (rt = true /\ l = lb) -> op d3 R (N - 2 - lb) 0 = None).
      { intros NE. rewrite <- (load_op _ _ _ _ _ _ (N - 2 - lb) 0 B1); [apply B4; exact HC|]. intros E. specialize (IB E). rewrite NM. intros E'. apply NE. split; [exact E|lia]. }
      unfold takes. cbn [fst snd]. destruct rt; cbn [fst snd sideb andb]; [|apply OR; intros [? _]; discriminate].
      destruct (Nat.eq_dec l lb) as [->|NE].
      + specialize (HM eq_refl). replace (N - 1 - (lb + 1)) with (N - 2 - lb) by lia. rewrite Nat.eqb_refl. destruct m; [lia|]. reflexivity.
      + rewrite OR by (intros [_ E]; auto). destruct ((N - 2 - lb =? N - 1 - (l + 1)) && (0 <? m)); reflexivity. }
  split; [exact RD'|]. intros n.
  destruct (no_emg_run T C En dT rows cols trivc growc solve canoL canoR bigL2 smallL2 bigR2 smallR2 combL2 combR2 dbg N shape0 shapeN shapeS lenL lenR quiet n _ _ _ _ _ RD') as [q [d8 [C1 [C2 [_ [_ [_ [_ C3]]]]]]]].
  - split; [reflexivity|]. intros; reflexivity.
  - exists d8. split; [exact C1|]. destruct C3 as [->|[_ [V|[u [_ V]]]]]; [exact C2|discriminate|discriminate].
Qed.

(** *** death between two sweeps *)
Notation right_env := (right_env T (list C) (fun s => [trivc s]) growc N).
Theorem dies_between_sweeps : forall k ts ts0 lb rb d, ready ts ts0 lb rb d -> stp d = false -> emg d = false ->
  exists d0 d1 d2 t, dmrg_init d = Ok (lb, rb, d0) /\ run [LoadM (lb + 1)] d0 = Ok d1 /\ sweeps quiet lb rb k d1 = Ok d2 /\
    let cs := fset (fst (sweeps_spec lb rb k (ts0, None))) (lb + 1) t in
    on_disk T unit En N cs (W (new_process N d2)) /\ (k = 0 -> t = ts0 (lb + 1)) /\
    forall cs1, prep2 cs = (lb, rb, cs1) -> (forall n, N - rb < n <= N - 2 - lb -> right_env cs1 n = right_env cs n) -> ready2 cs cs1 lb rb (new_process N d2) /\
    forall n, exists d3, execute2 quiet n (new_process N d2) = Ok d3 /\ complete T C En N (center_to_0 T canoR (lb + 1) (fst (sweeps_spec lb rb n (cs1, None)))) d3.
Proof.
  intros k ts ts0 lb rb d RD PS PE.
  destruct (ready_range T C En rows cols trivc growc canoL canoR bigL smallL bigR smallR combL combR N shape0 shapeN _ _ _ _ _ RD) as [HB HRB].
  destruct (started0 _ _ _ _ _ RD PS PE) as [d0 [d1 [S1 [S2 [S3 [S4 [S5 S6]]]]]]].
  destruct (all_quiet lb rb k ts0 d1 HB HRB S3 S5 S6) as [d2 [Q1 [Q2 Q3]]]. pose proof (sweeps_kept _ _ _ _ _ Q1) as Q4.
  rewrite (proj1 (sweeps_e T C En rows cols trivc growc solve N shape0 shapeN lb rb HB HRB k ts0 (eng (W d1)) None)) in Q2.
  set (s := sweeps_spec lb rb k (ts0, None)) in *. destruct Q2 as [Q2 _]. rewrite Nat.eqb_refl in Q2.
  destruct (dm (W d2) (lb + 1)) as [t|] eqn:EH; [|exfalso; apply (Q4 (lb + 1)); [rewrite S4 by lia; discriminate|exact EH]].
  exists d0, d1, d2, t. do 3 (split; [assumption|]). cbv zeta.
  match goal with |- on_disk _ _ _ _ ?c _ /\ _ => set (cs := c) end.
  assert (OD : on_disk T unit En N cs (W (new_process N d2))).
  { intros i Hi. cbn. unfold cs, fset. destruct (Nat.eqb_spec i (lb + 1)) as [->|]; [exact EH|]. apply (pt_dm _ _ _ _ _ _ _ _ _ _ _ _ _ Q2); auto. }
  split; [exact OD|]. split; [intros ->; cbn [Dmrg.sweeps] in Q1; injection Q1 as <-; rewrite S4 in EH by lia; congruence|].
  intros cs1 EP HG. destruct RD as [H3 [HP _]].
  assert (RD' : ready2 cs cs1 lb rb (new_process N d2)).
  { split; [exact H3|]. split; [exact EP|]. split; [reflexivity|]. split; [intros i _; reflexivity|]. split; [exact OD|].
    intros _ _ n Hn. rewrite HG by exact Hn. rewrite (right_env_ext _ _ _ _ _ _ (fst s)); [|lia|intros i Hi; unfold cs, fset; destruct (Nat.eqb_spec i (lb + 1)); [lia|reflexivity]].
    apply (pt_r _ _ _ _ _ _ _ _ _ _ _ _ _ Q2). lia. }
  split; [exact RD'|]. intros n.
  destruct (no_emg_run T C En dT rows cols trivc growc solve canoL canoR bigL2 smallL2 bigR2 smallR2 combL2 combR2 dbg N shape0 shapeN shapeS lenL lenR quiet n _ _ _ _ _ RD') as [q [d8 [C1 [C2 [_ [_ [_ [_ C3]]]]]]]].
  - split; [reflexivity|]. intros; reflexivity.
  - exists d8. split; [exact C1|]. destruct C3 as [->|[_ [V|[u [_ V]]]]]; [exact C2|discriminate|discriminate].
Qed.
(** *** any boundaries of the second run *)
(** every right block longer than N - 2 - l that the sweep had is missing *)
Definition gone (lb l : nat) (d : dst) : Prop := forall n c, N - 2 - l < n <= N - 2 - lb -> c < cols (N - 1 - n) -> op d R n c = None.
Lemma update_nm : forall rt l d d', update_step rt l d = Ok d' -> nm (W d') = nm (W d).
Proof.
  intros rt l d d' H. unfold Dmrg.update_step in H. bnd H. match type of H with (if ?b then _ else _) = _ => destruct b; [discriminate|] end. bnd H.
  match type of H with (let '(_, _) := ?o in _) = _ => destruct o as [[a' b'] e] end. bnd H.
  match goal with X : Disk.putM T unit En l a' _ = Ok _ |- _ => apply putM_files in X; destruct X as (X1 & _ & _) end.
  match goal with X : Disk.putM T unit En (l + 1) b' _ = Ok _ |- _ => apply putM_files in X; destruct X as (X2 & _ & _) end.
  destruct rt; bnd H; repeat match goal with Q : setG _ _ _ _ = Ok _ |- _ => apply setG_op in Q; destruct Q as [_ Q]; cbn [Dmrg.W setW set_eng Disk.nm] in Q end; congruence.
Qed.
Lemma load_right_op : forall lb rb l d d' c, load_step lb rb true l d = Ok d' -> c < cols (l + 1) -> op d' R (nm (W d) - 1 - (l + 1)) c = None.
Proof.
  intros lb rb l d d' c H Hc. unfold Dmrg.load_step in H. destruct (l =? lb); bnd H; injection H as <-; cbn [Dmrg.remove_group Dmrg.op set_op sideb andb];
    rewrite Nat.eqb_refl; destruct (Nat.ltb_spec c (cols (l + 1))); [reflexivity|lia|reflexivity|lia].
Qed.
Lemma write_op : forall s n g d d' m c, write_group s n g d = Ok d' -> s = L \/ m <> n -> op d' R m c = op d R m c.
Proof.
  intros s n g d d' m c H Q. unfold Dmrg.write_group in H. match type of H with bind ?o _ = _ => destruct o as [x| |]; cbn [bind] in H; try discriminate end. injection H as <-. cbn [Dmrg.op set_op].
  destruct Q as [->|Q]; [reflexivity|]. destruct (Nat.eqb_spec m n); [contradiction|]. rewrite andb_false_r. reflexivity.
Qed.
Lemma dump_op : forall rt l d d' n c, dump_step rt l d = Ok d' -> rt = true \/ n <> nm (W d) - 1 - l -> op d' R n c = op d R n c.
Proof.
  intros rt l d d' n c H Q. unfold Dmrg.dump_step in H. bnd H. destruct rt; bnd H.
  - apply (write_op _ _ _ _ _ n c) in H; [|left; reflexivity].
    apply setG_op in B. apply setG_op in B0. apply run_op in B1. destruct B as [B _], B0 as [B0 _]. congruence.
  - apply (write_op _ _ _ _ _ n c) in H; [|destruct Q as [Q|Q]; [discriminate|right; exact Q]].
    apply setG_op in B. apply setG_op in B0. apply run_op in B1. destruct B as [B _], B0 as [B0 _]. congruence.
Qed.
Lemma loaded_gone : forall lb rb rt l d d', lb <= l -> l + 1 < N -> nm (W d) = N -> load_step lb rb rt l d = Ok d' -> gone lb l d -> gone lb (if rt then l + 1 else l) d'.
Proof.
  intros lb rb rt l d d' H1 H2 HN H G n c Hn Hc. destruct rt.
  - destruct (Nat.eq_dec n (N - 1 - (l + 1))) as [->|NE].
    + rewrite <- HN at 1. apply (load_right_op _ _ _ _ _ _ H). replace (N - 1 - (N - 1 - (l + 1))) with (l + 1) in Hc by lia. exact Hc.
    + rewrite (load_op _ _ _ _ _ _ n c H) by (rewrite HN; auto). apply G; [lia|exact Hc].
  - rewrite (load_op _ _ _ _ _ _ n c H) by discriminate. apply G; [lia|exact Hc].
Qed.
Lemma step_gone : forall lb rb rt l d d' d4, lb <= l -> l + 1 < N -> (rt = false -> lb + 1 < l) -> nm (W d) = N -> load_step lb rb rt l d = Ok d4 -> nm (W d4) = N ->
  step lb rb (rt, l) d = Ok d' -> gone lb l d -> gone lb (if rt then l + 1 else l - 1) d'.
Proof.
  intros lb rb rt l d d' d4 H1 H2 H3 HN HL HN4 H G. pose proof (loaded_gone _ _ _ _ _ _ H1 H2 HN HL G) as G4.
  unfold Dmrg.step in H. rewrite HL in H. cbn [bind] in H. bnd H. pose proof (update_nm _ _ _ _ B) as UN. apply update_op in B.
  intros n c Hn Hc. rewrite (dump_op _ _ _ _ n c H), B.
  - destruct rt; apply G4; try exact Hc; lia.
  - destruct rt; [left; reflexivity|right]. specialize (H3 eq_refl). lia.
Qed.
Lemma some_gone : forall lb rb, lb + 2 <= rb -> rb < N -> forall bs pre b rest ts d d', bonds lb rb = pre ++ bs ++ b :: rest ->
  pos T C En cols trivc growc N lb rb (bs ++ b :: rest) ts d -> emg d = false -> gone lb (snd (hd b bs)) d -> sweep_from lb rb bs d = Ok d' -> gone lb (snd b) d'.
Proof.
  intros lb rb HB HRB. induction bs as [|c bs IH]; intros pre b rest ts d d' HO HP HE G H; cbn [Dmrg.sweep_from hd] in *; [injection H as <-; exact G|].
  cbn [app] in HP, HO.
  destruct (step_pos T C En dT rows cols trivc growc solve canoL canoR dbg N shape0 shapeN shapeS lenL lenR lb rb HB HRB c (bs ++ b :: rest) ts None d HP) as [d1 [A1 [A2 [A3 _]]]].
  pose proof (pos_nm _ _ _ _ _ HP) as NM. destruct (pos_loaded lb rb HB HRB _ _ _ _ HP) as [d4 [B1 [B2 _]]].
  rewrite A1 in H. cbn [bind] in H. destruct (quiet_poll d1) as [Q1 [Q2 Q3]]. destruct A2 as [_ [F2 _]]. rewrite Q1, F2, HE in H.
  assert (NX : exists rest', bs ++ b :: rest = hd b bs :: rest') by (destruct bs; eexists; reflexivity). destruct NX as [rest' NX].
  rewrite NX in HO. destruct (next_bond lb rb pre c (hd b bs) rest' HB HO) as [X1 [X2 X3]]. rewrite <- NX in HO.
  refine (IH (pre ++ [c]) b rest _ (poll T C En quiet d1) d' _ (pos_poll T C En cols trivc growc quiet N lb rb _ _ _ A3) _ _ H).
  - rewrite <- app_assoc. exact HO.
  - congruence.
  - destruct c as [rt l]. cbn [fst snd] in *. unfold gone. rewrite Q3, X1. refine (step_gone lb rb rt l d d1 d4 _ _ X3 NM B1 B2 A1 G); lia.
Qed.
Lemma pos_env : forall lb rb b rest ts d, lb + 2 <= rb -> rb < N -> pos T C En cols trivc growc N lb rb (b :: rest) ts d ->
  lb <= snd b < rb /\ (fst b = true -> snd b + 1 < rb) /\ (fst b = false -> lb + 1 <= snd b) /\ forall n, N - 1 - rb <= n <= N - 2 - snd b -> on_file (op d) R n (right_env ts n).
Proof.
  intros lb rb b rest ts d HB HRB [[i [k [A1 [A2 [A3 [A4 _]]]]]]|[k [A1 [A2 [A3 _]]]]].
  - destruct k as [|k].
    + cbn [seq map app] in A3. destruct (rb - 1 - lb) as [|k] eqn:EK; [lia|]. rewrite seq_S, rev_unit in A3. cbn [map] in A3. inversion A3; subst b rest. cbn [fst snd].
      split; [lia|]. split; [discriminate|]. split; [lia|]. intros n Hn. apply (pt_r _ _ _ _ _ _ _ _ _ _ _ _ _ A4). lia.
    + cbn [seq map app] in A3. inversion A3; subst b rest. cbn [fst snd]. split; [lia|]. split; [lia|]. split; [discriminate|]. apply (pt_r _ _ _ _ _ _ _ _ _ _ _ _ _ A4).
  - destruct k as [|k]; [discriminate|]. rewrite seq_S, rev_unit in A2. cbn [map] in A2. inversion A2; subst b rest. cbn [fst snd].
    split; [lia|]. split; [discriminate|]. split; [lia|]. intros n Hn. apply (pt_r _ _ _ _ _ _ _ _ _ _ _ _ _ A3). lia.
Qed.
Theorem dies_any_boundaries : forall k ts ts0 lb rb d bs b rest, ready ts ts0 lb rb d -> stp d = false -> emg d = false -> (forall i, i < N -> 0 < cols i) ->
  bonds lb rb = bs ++ b :: rest ->
  exists d0 d1 d2 d3 d4 t, dmrg_init d = Ok (lb, rb, d0) /\ run [LoadM (lb + 1)] d0 = Ok d1 /\ sweeps quiet lb rb k d1 = Ok d2 /\
    sweep_from lb rb bs d2 = Ok d3 /\ load_step lb rb (fst b) (snd b) d3 = Ok d4 /\
    let cs := fset (fst (opts bs (sweeps_spec lb rb k (ts0, None)))) (inmem lb rb b) t in
    on_disk T unit En N cs (W (new_process N d4)) /\
    forall lb' rb' cs1, prep2 cs = (lb', rb', cs1) -> rb' <= rb -> (forall n, N - rb' < n <= N - 2 - lb' -> right_env cs1 n = right_env cs n) ->
    ready2 cs cs1 lb' rb' (new_process N d4) /\
    forall n, exists d5, execute2 quiet n (new_process N d4) = Ok d5 /\ complete T C En N (center_to_0 T canoR (lb' + 1) (fst (sweeps_spec lb' rb' n (cs1, None)))) d5.
Proof.
  intros k ts ts0 lb rb d bs b rest RD PS PE HC HO.
  destruct (ready_range T C En rows cols trivc growc canoL canoR bigL smallL bigR smallR combL combR N shape0 shapeN _ _ _ _ _ RD) as [HB HRB].
  destruct (started _ _ _ _ _ RD PS PE) as [d0 [d1 [S1 [S2 [S3 [S4 [S5 S6]]]]]]].
  destruct (all_quiet lb rb k ts0 d1 HB HRB S3 S5 S6) as [d2 [Q1 [Q2 Q3]]]. pose proof (sweeps_kept _ _ _ _ _ Q1) as Q4.
  rewrite (proj1 (sweeps_e T C En rows cols trivc growc solve N shape0 shapeN lb rb HB HRB k ts0 (eng (W d1)) None)) in Q2.
  set (s := sweeps_spec lb rb k (ts0, None)) in *.
  assert (P0 : pos T C En cols trivc growc N lb rb (bs ++ b :: rest) (fst s) d2).
  { rewrite <- HO. left. exists lb, (rb - 1 - lb). split; [lia|]. split; [lia|]. split; [reflexivity|exact Q2]. }
  destruct (some_updates lb rb HB HRB bs (b :: rest) (fst s) (snd s) d2 P0 Q3) as [d3 [A1 [A2 [A3 [A4 A5]]]]]. rewrite <- surjective_pairing in A2.
  assert (G3 : gone lb (snd b) d3).
  { refine (some_gone lb rb HB HRB bs [] b rest (fst s) d2 d3 HO P0 Q3 _ A1). assert (E : hd b bs = (true, lb)).
    { unfold bonds in HO. destruct (rb - 1 - lb) as [|x] eqn:EX; [lia|]. cbn [seq map app] in HO. destruct bs; cbn [app hd] in *; congruence. }
    rewrite E. cbn [snd]. intros n c Hn. lia. }
  pose proof (pos_nm _ _ _ _ _ A2) as NM. destruct (pos_env lb rb b rest _ d3 HB HRB A2) as [V1 [V2 [V3 V4]]].
  destruct (pos_loaded lb rb HB HRB b rest _ d3 A2) as [d4 [B1 [B2 [B3 [B4 [B5 B6]]]]]].
  destruct (dm (W d3) (inmem lb rb b)) as [t|] eqn:EH; [|exfalso; apply (A3 (inmem lb rb b)); [apply Q4; apply S4; exact B5|exact EH]].
  exists d0, d1, d2, d3, d4, t. do 5 (split; [assumption|]). cbv zeta.
  match goal with |- on_disk _ _ _ _ ?c _ /\ _ => set (cs := c) end.
  assert (OD : on_disk T unit En N cs (W (new_process N d4))).
  { intros i Hi. cbn. rewrite B3. unfold cs, fset. destruct (Nat.eqb_spec i (inmem lb rb b)) as [->|]; [exact EH|]. apply B6; auto. }
  split; [exact OD|]. intros lb' rb' cs1 EP HRR HG. destruct RD as [H3 [HP _]].
  assert (RD' : ready2 cs cs1 lb' rb' (new_process N d4)).
  { destruct (prep_range T canoL canoR bigL2 smallL2 bigR2 smallR2 combL2 combR2 N _ _ _ _ H3 EP) as [R1 R2].
    destruct (prep_range T canoL canoR bigL smallL bigR smallR combL combR N _ _ _ _ H3 HP) as [R3 R4]. destruct (half_bounds N H3) as [X1 [X2 [X3 X4]]].
    split; [exact H3|]. split; [exact EP|]. split; [reflexivity|]. split; [intros i _; reflexivity|]. split; [exact OD|].
    intros _ HA. cbn [new_process Dmrg.op] in *. destruct b as [rt l]. cbn [fst snd] in *.
    pose proof (loaded_gone lb rb rt l d3 d4 ltac:(lia) ltac:(lia) NM B1 G3) as G4. set (l' := if rt then l + 1 else l) in *.
    assert (L1 : lb < l' /\ l' < rb) by (unfold l'; destruct rt; [specialize (V2 eq_refl)|specialize (V3 eq_refl)]; lia).
    destruct (le_lt_dec l' lb') as [LE|LT].
    - intros n Hn. rewrite HG by exact Hn. rewrite (right_env_ext _ _ _ _ _ _ (fst (opts bs s))); [| lia |].
      + intros c Hc. rewrite (load_op _ _ _ _ _ _ n c B1); [apply V4; [|exact Hc]|].
        * unfold l' in *. destruct rt; lia.
        * intros ->. rewrite NM. unfold l' in *. lia.
      + intros i Hi. unfold cs, fset. destruct (Nat.eqb_spec i (inmem lb rb (rt, l))) as [E|]; [|reflexivity]. exfalso.
        unfold inmem in E. unfold l' in *. destruct rt; [destruct (l =? lb)|destruct (l + 1 =? rb)]; lia.
    - exfalso. destruct (le_lt_dec lb lb') as [LE2|LT2].
      + apply (HA (N - 2 - lb') 0); [lia|apply HC; lia|apply G4; [lia|apply HC; lia]].
      + apply (HA (N - 2 - lb) 0); [lia|apply HC; lia|apply G4; [lia|apply HC; lia]]. }
  split; [exact RD'|]. intros n.
  destruct (no_emg_run T C En dT rows cols trivc growc solve canoL canoR bigL2 smallL2 bigR2 smallR2 combL2 combR2 dbg N shape0 shapeN shapeS lenL lenR quiet n _ _ _ _ _ RD') as [q [d8 [C1 [C2 [_ [_ [_ [_ C3]]]]]]]].
  - split; [reflexivity|]. intros; reflexivity.
  - exists d8. split; [exact C1|]. destruct C3 as [->|[_ [V|[u [_ V]]]]]; [exact C2|discriminate|discriminate].
Qed.
(** *** death while the first operators are written *)
Notation init_ops := (init_ops T C En dT rows cols trivc growc solve canoL canoR dbg).
Notation boundary := (boundary T unit En dT tt (fun _ => tt) (fun _ _ _ _ => tt) (fun rt l _ a b _ => solve rt l [] a b []) canoL canoR bigL smallL bigR smallR combL combR dbg).
Lemma init_loop_op : forall n k i x y j c, for_loop i n (init_body T C En dT rows cols growc solve canoL canoR dbg k) x = Ok y -> i + n <= j -> op (snd y) R j c = op (snd x) R j c.
Proof.
  induction n as [|n IH]; intros k i x y j c H Hj; cbn [for_loop] in H; [injection H as <-; reflexivity|].
  bnd H. rewrite (IH _ _ _ _ j c H) by lia. clear H IH. destruct x as [g d]. unfold init_body in B. cbn [snd].
  destruct (1 <? i); bnd B; injection B as <-; cbn [snd];
    repeat match goal with
    | X : run _ _ = Ok _ |- _ => apply run_op in X
    | X : write_group _ _ _ _ = Ok _ |- _ => apply (write_op _ _ _ _ _ j c) in X; [|right; lia]
    | X : Ok _ = Ok _ |- _ => injection X as X; subst
    end; congruence.
Qed.
Lemma init_ops_op : forall l d d' j c, init_ops l d = Ok d' -> nm (W d) - (l + 2) < j -> op d' R j c = op d R j c.
Proof.
  intros l d d' j c H Hj. unfold Dmrg.init_ops in H. bnd H. match type of H with (let (_, _) := ?q in _) = _ => destruct q as [g d2] end. injection H as <-.
  match goal with X : for_loop _ _ _ _ = Ok _ |- _ => apply (init_loop_op _ _ _ _ _ j c) in X; [|lia]; cbn [snd] in X; rewrite X end.
  repeat match goal with
    | X : run _ _ = Ok _ |- _ => apply run_op in X
    | X : write_group _ _ _ _ = Ok _ |- _ => apply (write_op _ _ _ _ _ j c) in X; [|right; lia]
    end. congruence.
Qed.
(** the operators of the blocks of up to m sites are written: the loop of InitBlockOps has come as far as it goes with the boundary N - 2 - m *)
Theorem dies_preparing : forall m ts ts0 lb rb d c0, ready ts ts0 lb rb d -> c0 < cols (lb + 1) -> op d R (N - 2 - lb) c0 = None -> 1 <= m < N - 2 - lb ->
  exists w d1 d2, boundary (W d) = Ok (lb, rb, w) /\ (if tmp T unit En w then Ok (setW T C En w d) else run [Mkdir] (setW T C En w d)) = Ok d1 /\ init_ops (N - 2 - m) d1 = Ok d2 /\
    on_disk T unit En N ts0 (W (new_process N d2)) /\
    forall lb' rb' cs1, prep2 ts0 = (lb', rb', cs1) -> lb' <= lb -> ready2 ts0 cs1 lb' rb' (new_process N d2) /\
    forall n, exists d5, execute2 quiet n (new_process N d2) = Ok d5 /\ complete T C En N (center_to_0 T canoR (lb' + 1) (fst (sweeps_spec lb' rb' n (cs1, None)))) d5.
Proof.
  intros m ts ts0 lb rb d c0 RD Hc0 HF Hm.
  destruct (ready_range T C En rows cols trivc growc canoL canoR bigL smallL bigR smallR combL combR N shape0 shapeN _ _ _ _ _ RD) as [HB HRB]. destruct RD as [H3 [HP [H1 [HMe [HD _]]]]].
  destruct (boundary_ok T unit En dT tt (fun _ => tt) (fun _ _ _ _ => tt) (fun rt l _ a b _ => solve rt l [] a b []) canoL canoR bigL smallL bigR smallR combL combR dbg N ts (W d) H3 H1 HMe HD)
    as [lb0 [rb0 [ts' [w [A1 [A2 [A3 [A4 A5]]]]]]]]. rewrite HP in A1. inversion A1; subst lb0 rb0 ts'. destruct A3 as [K1 [K2 [K3 K4]]].
  assert (D1 : exists d1, (if tmp T unit En w then Ok (setW T C En w d) else run [Mkdir] (setW T C En w d)) = Ok d1 /\ nm (W d1) = N /\ on_disk T unit En N ts0 (W d1) /\ mem_empty T unit En N (W d1) /\ op d1 = op d).
  { destruct (tmp T unit En w).
    - exists (setW T C En w d). cbn. split; [reflexivity|]. split; [congruence|]. auto.
    - exists (setW T C En (set_tmp T unit En true w) (setW T C En w d)). split; [apply run_exec; apply ex_Mkdir|]. cbn. split; [congruence|]. auto. }
  destruct D1 as [d1 [E1 [E2 [E3 [E4 E5]]]]].
  destruct (init_ops_ok T C En dT rows cols trivc growc solve canoL canoR dbg N shape0 shapeN shapeS lenR (N - 2 - m) (N - 1) ltac:(lia) ltac:(lia) ts0 d1 E2 E3 E4) as [d2 [F1 [F2 [F3 _]]]].
  exists w, d1, d2. do 3 (split; [assumption|]).
  assert (OD : on_disk T unit En N ts0 (W (new_process N d2))) by (intros i Hi; cbn; apply F3; exact Hi).
  split; [exact OD|]. intros lb' rb' cs1 EP HLL.
  assert (RD' : ready2 ts0 cs1 lb' rb' (new_process N d2)).
  { destruct (prep_range T canoL canoR bigL2 smallL2 bigR2 smallR2 combL2 combR2 N _ _ _ _ H3 EP) as [R1 R2].
    destruct (prep_range T canoL canoR bigL smallL bigR smallR combL combR N _ _ _ _ H3 HP) as [R3 R4]. destruct (half_bounds N H3) as [X1 [X2 [X3 X4]]].
    split; [exact H3|]. split; [exact EP|]. split; [reflexivity|]. split; [intros i _; reflexivity|]. split; [exact OD|].
    intros _ HA. exfalso. apply (HA (N - 2 - lb) c0).
    - lia.
    - replace (N - 1 - (N - 2 - lb)) with (lb + 1) by lia. exact Hc0.
    - cbn [new_process Dmrg.op]. rewrite (init_ops_op _ _ _ (N - 2 - lb) c0 F1) by (rewrite E2; lia). rewrite E5. exact HF. }
  split; [exact RD'|]. intros n.
  destruct (no_emg_run T C En dT rows cols trivc growc solve canoL canoR bigL2 smallL2 bigR2 smallR2 combL2 combR2 dbg N shape0 shapeN shapeS lenL lenR quiet n _ _ _ _ _ RD') as [q [d8 [C1 [C2 [_ [_ [_ [_ C3]]]]]]]].
  - split; [reflexivity|]. intros; reflexivity.
  - exists d8. split; [exact C1|]. destruct C3 as [->|[_ [V|[u [_ V]]]]]; [exact C2|discriminate|discriminate].
Qed.
End Crash.

(** the tensor that is not read is that of the site shared with the update before *)
Lemma inmem_shared : forall lb rb bs c b rest, lb + 2 <= rb -> bonds lb rb = bs ++ c :: b :: rest ->
  inmem lb rb b = (if fst c then snd c + 1 else snd c) /\ (inmem lb rb b = snd b \/ inmem lb rb b = snd b + 1).
Proof.
  intros lb rb bs c b rest Hlr H. split; [|destruct b as [[] l]; cbn [inmem snd]; [destruct (l =? lb)|destruct (l + 1 =? rb)]; auto].
  unfold bonds in H. destruct (fst b) eqn:Hb.
  - destruct (rights_then _ _ _ _ _ _ _ H Hb) as [A1 A2]; [intros x Hx; apply in_map_iff in Hx; destruct Hx as [y [<- _]]; reflexivity|].
    subst c. destruct b as [rt l]. cbn [fst snd] in *. subst rt. cbn [inmem]. destruct (Nat.eqb_spec l lb); lia.
  - remember (rb - 1 - lb) as n eqn:En. assert (X : forall n' i bs, n' <= n -> i + n' = rb - 1 -> map (fun i => (true, i)) (seq i n') ++ map (fun i => (false, i - 1)) (rev (seq (lb + 2) n)) = bs ++ c :: b :: rest ->
      inmem lb rb b = if fst c then snd c + 1 else snd c).
    { clear H bs. induction n' as [|n' IH]; intros i bs Hn Hi H; cbn [seq map app] in H.
      - destruct (lefts_then _ _ _ _ _ _ H) as [A1 [A2 A3]]. subst c. destruct b as [rt l]. cbn [fst snd] in *. subst rt. cbn [inmem]. destruct (Nat.eqb_spec (l + 1) rb); lia.
      - destruct bs as [|b0 bs]; cbn [app] in H; injection H as <- H; [|apply (IH (S i) bs); [lia|lia|exact H]].
        destruct n' as [|n']; cbn [seq map app] in H; [|injection H as <- _; discriminate].
        destruct n as [|n]; [lia|]. rewrite seq_S, rev_unit in H. cbn [map] in H. injection H as <- _. cbn [inmem fst snd]. destruct (Nat.eqb_spec (lb + 2 + n - 1 + 1) rb); lia. }
    apply (X n lb bs); [lia|lia|exact H].
Qed.
