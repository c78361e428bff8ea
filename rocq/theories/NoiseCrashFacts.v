(** A noised two-site run that dies: what stays in the files, and what the next run makes of it. *)
From Coq Require Import List Arith Lia Bool.
From Verif Require Import Base Disk SweepSpec DiskFacts TwoSite TwoSiteFacts VmpsInit NoiseSpec VmpsInitFacts Noise NoiseFacts.
Import ListNotations.

Section Crash.
Variables T E St : Type.
Variables (dT : T) (dE : E) (triv : side -> E) (grow : side -> nat -> E -> T -> E).
Variables (canoL canoR : T -> T -> T * T).
Variables (bigL smallL bigR smallR : T -> bool) (combL combR : T -> T -> T * T).
Variable solve3 : bool -> nat -> E -> T -> T -> E -> T -> St -> T * T * T * St.
Variable preset : nat -> option St.
Variable carry : St -> St.
Variable solve2 : bool -> nat -> E -> T -> T -> E -> T * T * St.
Variable dbg : bool.
Notation world := (world T E St).
Notation exec1 := (exec1 T E St dT dE triv grow solve2 canoL canoR dbg).
Notation exec := (exec T E St dT dE triv grow solve2 canoL canoR dbg).
Notation nexec1 := (nexec1 T E St dT dE triv grow canoL canoR solve3 preset carry solve2 dbg).
Notation nexec := (nexec T E St dT dE triv grow canoL canoR solve3 preset carry solve2 dbg).
Notation nm := (nm T E St). Notation mm := (mm T E St). Notation dm := (dm T E St). Notation dl := (dl T E St). Notation dr := (dr T E St).
Notation eng := (eng T E St). Notation tmp := (tmp T E St).
Notation crash := (crash T E St).
Notation run_noise := (run_noise T E St dT dE triv grow canoL canoR bigL smallL bigR smallR combL combR solve3 preset carry solve2 dbg).
Variable N : nat.
Notation left_env := (left_env T E triv grow). Notation right_env := (right_env T E triv grow N).
Notation sweeps3 := (sweeps3 T E St triv grow solve3 N preset carry).
Notation prep := (prep T canoL canoR bigL smallL bigR smallR combL combR N).

Ltac dst H := repeat match type of H with
  | context [if ?b then _ else _] => destruct b; try discriminate H
  | context [match ?o with Some _ => _ | None => _ end] => destruct o; try discriminate H
  | context [let '(_, _) := ?o in _] => destruct o
  end.
Lemma getM_inv : forall i w t, getM T E St i w = Ok t -> mm w i = Some t.
Proof. intros i w t H. unfold getM, use in H. dst H. congruence. Qed.
Lemma putM_files : forall i t w w', putM T E St i t w = Ok w' -> nm w' = nm w /\ dm w' = dm w /\ dr w' = dr w.
Proof. intros i t w w' H. unfold putM in H. dst H. injection H as <-. auto. Qed.
Lemma putE_files : forall s i t w w', putE T E St s i t w = Ok w' -> nm w' = nm w /\ dm w' = dm w /\ dr w' = dr w.
Proof. intros s i t w w' H. unfold putE in H. dst H. injection H as <-. destruct s; auto. Qed.
Ltac bnd H := repeat match type of H with
  | bind ?o _ = Ok _ => let E0 := fresh "B" in let x := fresh "x" in destruct o as [x| |] eqn:E0; cbn [bind] in H; try discriminate H
  | context [let '(_, _) := ?o in _] => destruct o
  end.
(** what an instruction does to the files *)
Definition keeps_dm (w w' : world) : Prop := nm w' = nm w /\ forall i, dm w i <> None -> dm w' i <> None.
Lemma exec1_files : forall c w w', exec1 c w = Ok w' -> keeps_dm w w'.
Proof.
  intros c w w' H. unfold keeps_dm. destruct c; cbn [Disk.exec1] in H.
  - injection H as <-. auto.
  - dst H. injection H as <-. auto.
  - dst H; injection H as <-; (split; [reflexivity|]); intros j Hj; cbn; unfold fset; destruct (j =? i); congruence.
  - dst H. injection H as <-. auto.
  - dst H. injection H as <-. auto.
  - injection H as <-. auto.
  - dst H. injection H as <-. destruct s; auto.
  - dst H. injection H as <-. destruct s; auto.
  - dst H. injection H as <-. destruct s; auto.
  - injection H as <-. destruct s; auto.
  - bnd H. injection H as <-. auto.
  - bnd H. injection H as <-. auto.
  - bnd H. injection H as <-. destruct s; auto.
  - bnd H. destruct (solve2 rt l x x1 x2 x0) as [[a' b'] z]. bnd H. injection H as <-.
    apply putM_files in B3, B4. assert (Q : nm x5 = nm x4 /\ dm x5 = dm x4 /\ dr x5 = dr x4) by (destruct rt; eapply putE_files; eauto).
    destruct B3 as (a1 & a2 & _), B4 as (b1 & b2 & _), Q as (c1 & c2 & _). cbn. rewrite c1, b1, a1, c2, b2, a2. auto.
  - bnd H. destruct (canoL x x0) as [a' b']. bnd H. apply putM_files in B1, H. destruct B1 as (a1 & a2 & _), H as (b1 & b2 & _). rewrite b1, a1, b2, a2. auto.
  - bnd H. destruct (canoR x x0) as [a' b']. bnd H. apply putM_files in B1, H. destruct B1 as (a1 & a2 & _), H as (b1 & b2 & _). rewrite b1, a1, b2, a2. auto.
Qed.
(** right environments are written only by [DumpE R] and [WriteAcc R] *)
Lemma exec1_dr : forall c w w' r, exec1 c w = Ok w' -> c <> DumpE R r -> c <> WriteAcc R r -> dr w r = None -> dr w' r = None.
Proof.
  intros c w w' r H H1 H2 H0. destruct c; cbn [Disk.exec1] in H.
  - injection H as <-. auto.
  - dst H. injection H as <-. auto.
  - dst H; injection H as <-; auto.
  - dst H. injection H as <-. auto.
  - dst H. injection H as <-. auto.
  - injection H as <-. auto.
  - dst H. injection H as <-. destruct s; auto.
  - dst H. injection H as <-. destruct s; auto. cbn. unfold fset. destruct (Nat.eqb_spec r len); [subst; congruence|auto].
  - dst H. injection H as <-. destruct s; auto.
  - injection H as <-. destruct s; auto. cbn. unfold fset. destruct (r =? len); auto.
  - bnd H. injection H as <-. auto.
  - bnd H. injection H as <-. auto.
  - bnd H. injection H as <-. destruct s; auto. cbn. unfold fset. destruct (Nat.eqb_spec r len); [subst; congruence|auto].
  - bnd H. destruct (solve2 rt l x x1 x2 x0) as [[a' b'] z]. bnd H. injection H as <-.
    apply putM_files in B3, B4. assert (Q : nm x5 = nm x4 /\ dm x5 = dm x4 /\ dr x5 = dr x4) by (destruct rt; eapply putE_files; eauto).
    destruct B3 as (_ & _ & a2), B4 as (_ & _ & b2), Q as (_ & _ & c2). cbn. rewrite c2, b2, a2. auto.
  - bnd H. destruct (canoL x x0) as [a' b']. bnd H. apply putM_files in B1, H. destruct B1 as (_ & _ & a2), H as (_ & _ & b2). rewrite b2, a2. auto.
  - bnd H. destruct (canoR x x0) as [a' b']. bnd H. apply putM_files in B1, H. destruct B1 as (_ & _ & a2), H as (_ & _ & b2). rewrite b2, a2. auto.
Qed.
Lemma upd3_files : forall rt l nn w w', nexec1 (Upd3 rt l nn) w = Ok w' -> nm w' = nm w /\ dm w' = dm w /\ dr w' = dr w.
Proof.
  intros rt l nn w w' H. cbn [Noise.nexec1] in H. bnd H. destruct (solve3 rt l x x1 x2 x0 x3 x4) as [[[a' b'] c'] z]. bnd H. injection H as <-.
  apply putM_files in B5, B6, B7. assert (Q : nm x8 = nm x7 /\ dm x8 = dm x7 /\ dr x8 = dr x7) by (destruct rt; eapply putE_files; eauto).
  destruct B5 as (a1 & a2 & a3), B6 as (b1 & b2 & b3), B7 as (d1 & d2 & d3), Q as (c1 & c2 & c3). cbn. rewrite c1, c2, c3, d1, d2, d3, b1, b2, b3, a1, a2, a3. auto.
Qed.
Lemma nexec_files : forall p w w', nexec p w = Ok w' -> keeps_dm w w'.
Proof.
  induction p as [|c p IH]; intros w w' H; cbn [Noise.nexec] in H; [injection H as <-; split; auto|].
  destruct (nexec1 c w) as [w1| |] eqn:E1; cbn [bind] in H; try discriminate. destruct (IH _ _ H) as [I1 I2].
  assert (K : keeps_dm w w1).
  { destruct c.
    - exact (exec1_files _ _ _ E1).
    - destruct (upd3_files _ _ _ _ _ E1) as (a & b & _). split; [exact a|]. rewrite b. auto.
    - cbn [Noise.nexec1] in E1. injection E1 as <-. split; auto. }
  destruct K as [K1 K2]. split; [congruence|auto].
Qed.
Lemma nexec_dr : forall p w w' r, nexec p w = Ok w' -> ~ In (B (DumpE R r)) p -> ~ In (B (WriteAcc R r)) p -> dr w r = None -> dr w' r = None.
Proof.
  induction p as [|c p IH]; intros w w' r H H1 H2 H0; cbn [Noise.nexec] in H; [injection H as <-; auto|].
  destruct (nexec1 c w) as [w1| |] eqn:E1; cbn [bind] in H; try discriminate.
  apply (IH w1 w' r H); [intros Q; apply H1; right; exact Q|intros Q; apply H2; right; exact Q|]. destruct c.
  - apply (exec1_dr _ _ _ r E1); auto; intros ->; [apply H1|apply H2]; left; auto.
  - destruct (upd3_files _ _ _ _ _ E1) as (_ & _ & b). rewrite b. auto.
  - cbn [Noise.nexec1] in E1. injection E1 as <-. auto.
Qed.
Lemma nexec_removed : forall p w w' r, nexec p w = Ok w' -> In (B (RmE R r)) p -> ~ In (B (DumpE R r)) p -> ~ In (B (WriteAcc R r)) p -> dr w' r = None.
Proof.
  induction p as [|c p IH]; intros w w' r H HI H1 H2; [destruct HI|]. cbn [Noise.nexec] in H.
  destruct (nexec1 c w) as [w1| |] eqn:E1; cbn [bind] in H; try discriminate.
  assert (N1 : ~ In (B (DumpE R r)) p) by (intros Q; apply H1; right; auto). assert (N2 : ~ In (B (WriteAcc R r)) p) by (intros Q; apply H2; right; auto).
  destruct HI as [->|HI]; [|eapply IH; eauto]. cbn in E1. injection E1 as <-. apply (nexec_dr p _ w' r H); auto. cbn. unfold fset. rewrite Nat.eqb_refl. auto.
Qed.
Lemma sweep3_no_acc : forall lb rb k r, ~ In (B (WriteAcc R r)) (sweep3 N lb rb k).
Proof.
  intros lb rb k r H. unfold sweep3, sweep3e in H. apply in_app_or in H. destruct H as [H|H]; [cbn in H; intuition discriminate|].
  apply in_app_or in H. destruct H as [H|H]; apply in_flat_map in H; destruct H as [i [_ H]]; unfold step_right3, step_left3, load_right3, load_left3, dump_right, dump_left in H;
    repeat match type of H with context [if ?b then _ else _] => destruct b end; cbn in H; intuition discriminate.
Qed.
Lemma nexec_prefix : forall p q w w', nexec (p ++ q) w = Ok w' -> exists w1, nexec p w = Ok w1.
Proof. intros p q w w' H. rewrite nexec_app in H. destruct (nexec p w) eqn:E1; cbn [bind] in H; try discriminate. eauto. Qed.

(** a run in a directory from which a right environment that it needs is missing *)
Lemma run_missing : forall sweeps cs w lb rb cs1 r, 3 <= N -> nm w = N -> on_disk T E St N cs w -> preset 0 <> None -> prep cs = (lb, rb, cs1) ->
  N - 1 - rb <= r <= N - 2 - lb -> dr w r = None ->
  exists ts2 s w', sweeps3 lb rb (S sweeps) 0 (cs1, None) = (ts2, Some s) /\ run_noise false (S sweeps) (crash w) = Ok (s, w') /\
    nm w' = N /\ mem_empty T E St N w' /\ on_disk T E St N (set2 T ts2 lb (canoL (ts2 lb) (ts2 (lb + 1)))) w'.
Proof.
  intros sweeps cs w lb rb cs1 r HN W1 W2 HP EP HR HD. apply (run_noise_ok T E St dT dE triv grow canoL canoR bigL smallL bigR smallR combL combR solve3 preset carry solve2 dbg N sweeps cs (crash w)); auto.
  - intros i _. reflexivity.
  - intros _ Q. exfalso. exact (Q r HR HD).
Qed.
Lemma files_chain : forall w t0, (forall i, i < N -> dm w i <> None) -> exists cs : nat -> T, on_disk T E St N cs (crash w) /\ (cs = fun i => orelse t0 (dm w i)).
Proof.
  intros w t0 H. exists (fun i => orelse t0 (dm w i)). split; auto. intros i Hi. cbn. specialize (H i Hi). destruct (dm w i); [reflexivity|congruence].
Qed.

Theorem dies_in_sweep : forall lb rb k j ts w p q, 3 <= N -> lb + 2 <= rb -> rb < N -> 2 * lb + 3 <= N ->
  spoint3 T E St triv grow N lb rb ts w -> (forall i, i < N -> dm w i <> None) -> (preset k <> None \/ eng w <> None) ->
  sweep3 N lb rb (k + j) = p ++ q -> In (B (RmE R (N - 2 - lb))) p -> ~ In (B (DumpE R (N - 2 - lb))) p ->
  exists w' cs, nexec (flat_map (sweep3 N lb rb) (seq k j) ++ p) w = Ok w' /\ on_disk T E St N cs (crash w') /\
    forall sweeps lb' rb' cs1, preset 0 <> None -> prep cs = (lb', rb', cs1) -> lb' <= lb ->
    exists ts2 s w2, sweeps3 lb' rb' (S sweeps) 0 (cs1, None) = (ts2, Some s) /\ run_noise false (S sweeps) (crash w') = Ok (s, w2) /\
      nm w2 = N /\ mem_empty T E St N w2 /\ on_disk T E St N (set2 T ts2 lb' (canoL (ts2 lb') (ts2 (lb' + 1)))) w2.
Proof.
  intros lb rb k j ts w p q HN HB HRB HL HS HF HE HP HI HNI.
  destruct (sweeps3_ok T E St dT dE triv grow canoL canoR solve3 preset carry solve2 dbg N lb rb HB HRB (S j) k ts w [] HS HE) as [wf [A _]].
  rewrite seq_S, flat_map_app in A. cbn [flat_map] in A. rewrite HP, !app_nil_r, app_assoc in A. cbn [Noise.nexec] in A.
  destruct (nexec_prefix _ _ _ _ A) as [w' W]. exists w'.
  destruct (nexec_files _ _ _ W) as [K1 K2]. assert (HF' : forall i, i < N -> dm w' i <> None) by auto.
  destruct (files_chain w' dT HF') as [cs [C1 _]]. exists cs. split; [exact W|]. split; [exact C1|].
  rewrite nexec_app in W. destruct (nexec (flat_map (sweep3 N lb rb) (seq k j)) w) as [wj| |] eqn:EJ; cbn [bind] in W; try discriminate.
  assert (D : dr w' (N - 2 - lb) = None).
  { apply (nexec_removed p wj w' _ W HI HNI). intros Q. apply (sweep3_no_acc lb rb (k + j) (N - 2 - lb)). rewrite HP. apply in_or_app. auto. }
  intros sweeps lb' rb' cs1 HP0 EP HLL. destruct (prep_range T canoL canoR bigL smallL bigR smallR combL combR N _ _ _ _ HN EP) as [R1 R2].
  apply (run_missing sweeps cs w' lb' rb' cs1 (N - 2 - lb)); auto.
  - rewrite K1. apply (s3_nm _ _ _ _ _ _ _ _ _ _ HS).
  - pose proof (Nat.div_mod N 2). pose proof (Nat.mod_upper_bound N 2). lia.
Qed.
Theorem dies_between : forall lb rb k j ts w, lb + 2 <= rb -> rb < N -> spoint3 T E St triv grow N lb rb ts w -> (forall i, i < N -> dm w i <> None) -> (preset k <> None \/ eng w <> None) ->
  exists w' a b, nexec (flat_map (sweep3 N lb rb) (seq k j)) w = Ok w' /\
    let ts' := fst (sweeps3 lb rb j k (ts, eng w)) in on_disk T E St N (set2 T ts' lb (a, b)) (crash w') /\
    (forall n, N - 1 - rb <= n <= N - 2 - lb -> dr (crash w') n = Some (right_env ts' n)) /\ dl (crash w') lb = Some (left_env ts' lb).
Proof.
  intros lb rb k j ts w HB HRB HS HF HE.
  destruct (sweeps3_ok T E St dT dE triv grow canoL canoR solve3 preset carry solve2 dbg N lb rb HB HRB j k ts w [] HS HE) as [w' [A [P _]]].
  rewrite app_nil_r in A. cbn [Noise.nexec] in A. destruct (nexec_files _ _ _ A) as [K1 K2]. destruct P as [P1 P2 P3 P4 P5].
  destruct (dm w' lb) as [a|] eqn:EA; [|exfalso; apply (K2 lb); [apply HF; lia|exact EA]].
  destruct (dm w' (lb + 1)) as [b|] eqn:EB; [|exfalso; apply (K2 (lb + 1)); [apply HF; lia|exact EB]].
  exists w', a, b. split; [exact A|]. split; [|split; auto].
  intros i Hi. unfold set2. cbn. unfold fset. destruct (Nat.eqb_spec i (lb + 1)); [subst; auto|]. destruct (Nat.eqb_spec i lb); [subst; auto|]. apply P3; auto.
Qed.
Lemma nexec_of_exec : forall p w w', exec p w = Ok w' -> nexec (map B p) w = Ok w'.
Proof. intros p w w' H. rewrite nexec_B. exact H. Qed.
Lemma exec_dm : forall p w w', exec p w = Ok w' -> (forall c, In c p -> match c with DumpM _ _ => False | _ => True end) -> dm w' = dm w.
Proof.
  induction p as [|c p IH]; intros w w' H HP; cbn [Disk.exec] in H; [injection H as <-; auto|].
  destruct (exec1 c w) as [w1| |] eqn:E1; cbn [bind] in H; try discriminate. rewrite (IH w1 w' H); [|intros d Hd; apply HP; right; auto].
  pose proof (HP c (or_introl eq_refl)) as Q. clear IH H HP. rename E1 into H. destruct c; cbn [Disk.exec1] in H; try (destruct Q; fail).
  - injection H as <-. auto.
  - dst H. injection H as <-. auto.
  - dst H. injection H as <-. auto.
  - dst H. injection H as <-. auto.
  - injection H as <-. auto.
  - dst H. injection H as <-. destruct s; auto.
  - dst H. injection H as <-. destruct s; auto.
  - dst H. injection H as <-. destruct s; auto.
  - injection H as <-. destruct s; auto.
  - bnd H. injection H as <-. auto.
  - bnd H. injection H as <-. auto.
  - bnd H. injection H as <-. destruct s; auto.
  - bnd H. destruct (solve2 rt l x x1 x2 x0) as [[a' b'] z]. bnd H. injection H as <-.
    apply putM_files in B3, B4. assert (Q' : nm x5 = nm x4 /\ dm x5 = dm x4 /\ dr x5 = dr x4) by (destruct rt; eapply putE_files; eauto).
    destruct B3 as (_ & a2 & _), B4 as (_ & b2 & _), Q' as (_ & c2 & _). cbn. rewrite c2, b2, a2. auto.
  - bnd H. destruct (canoL x x0) as [a' b']. bnd H. apply putM_files in B1, H. destruct B1 as (_ & a2 & _), H as (_ & b2 & _). rewrite b2, a2. auto.
  - bnd H. destruct (canoR x x0) as [a' b']. bnd H. apply putM_files in B1, H. destruct B1 as (_ & a2 & _), H as (_ & b2 & _). rewrite b2, a2. auto.
Qed.
Notation boundary := (boundary T E St dT dE triv grow solve2 canoL canoR bigL smallL bigR smallR combL combR dbg).
Theorem dies_preparing : forall ts w lb rb ts1 p q, 3 <= N -> nm w = N -> mem_empty T E St N w -> on_disk T E St N ts w -> prep ts = (lb, rb, ts1) ->
  dr w (N - 2 - lb) = None -> Mkdir :: init_envs N (lb + 2) = p ++ q -> ~ In (WriteAcc R (N - 2 - lb)) p ->
  exists w1 w', boundary w = Ok (lb, rb, w1) /\ exec p w1 = Ok w' /\ on_disk T E St N ts1 (crash w') /\
    forall sweeps lb' rb' cs1, preset 0 <> None -> prep ts1 = (lb', rb', cs1) -> lb' <= lb ->
    exists ts2 s w2, sweeps3 lb' rb' (S sweeps) 0 (cs1, None) = (ts2, Some s) /\ run_noise false (S sweeps) (crash w') = Ok (s, w2) /\
      nm w2 = N /\ mem_empty T E St N w2 /\ on_disk T E St N (set2 T ts2 lb' (canoL (ts2 lb') (ts2 (lb' + 1)))) w2.
Proof.
  intros ts w lb rb ts1 p q HN W1 W2 W3 EP HD HQ HNI.
  destruct (boundary_ok T E St dT dE triv grow solve2 canoL canoR bigL smallL bigR smallR combL combR dbg N ts w HN W1 W2 W3) as [lb0 [rb0 [ts0 [w1 [P1 [P2 [P3 [P4 P5]]]]]]]].
  rewrite EP in P1. injection P1 as <- <- <-. exists w1.
  destruct (prep_range T canoL canoR bigL smallL bigR smallR combL combR N _ _ _ _ HN EP) as [R1 R2]. destruct (half_bounds N HN) as [H1 [H2 [H3 H4]]].
  assert (NM : nm w1 = N) by (destruct P3; intuition congruence). assert (D1 : dr w1 (N - 2 - lb) = None) by (destruct P3; intuition congruence).
  destruct (init_envs_ok T E St dT dE triv grow solve2 canoL canoR dbg N (lb + 2) ts1 (set_tmp T E St true w1) []) as [wf [F1 _]]; auto; [lia|].
  rewrite app_nil_r in F1. cbn [Disk.exec] in F1.
  assert (FX : nexec (map B (p ++ q)) w1 = Ok wf) by (rewrite <- HQ, nexec_B; cbn [Disk.exec Disk.exec1 bind]; exact F1).
  rewrite map_app in FX. destruct (nexec_prefix _ _ _ _ FX) as [w' W]. exists w'.
  pose proof W as WE. rewrite nexec_B in WE.
  assert (ND : forall c, In c p -> match c with DumpM _ _ => False | _ => True end).
  { intros c Hc. assert (Q : In c (Mkdir :: init_envs N (lb + 2))) by (rewrite HQ; apply in_or_app; auto).
    unfold init_envs in Q. destruct Q as [<-|Q]; [exact I|]. apply in_app_or in Q. destruct Q as [Q|Q]; [cbn in Q; intuition (subst; exact I)|].
    apply in_app_or in Q. destruct Q as [Q|Q]; [|cbn in Q; intuition (subst; exact I)].
    apply in_flat_map in Q. destruct Q as [i [_ Q]]. destruct (1 <? i); cbn in Q; intuition (subst; exact I). }
  pose proof (exec_dm _ _ _ WE ND) as DM. assert (OD : on_disk T E St N ts1 (crash w')) by (intros i Hi; cbn; rewrite DM; apply P5; auto).
  destruct (nexec_files _ _ _ W) as [K1 _].
  assert (D : dr w' (N - 2 - lb) = None).
  { apply (nexec_dr _ _ _ _ W); auto.
    - intros Q. apply in_map_iff in Q. destruct Q as [c [Q1 Q2]]. injection Q1 as ->.
      assert (Q : In (DumpE R (N - 2 - lb)) (Mkdir :: init_envs N (lb + 2))) by (rewrite HQ; apply in_or_app; auto).
      unfold init_envs in Q. destruct Q as [Q|Q]; [discriminate|]. apply in_app_or in Q. destruct Q as [Q|Q]; [cbn in Q; intuition discriminate|].
      apply in_app_or in Q. destruct Q as [Q|Q]; [|cbn in Q; intuition discriminate].
      apply in_flat_map in Q. destruct Q as [i [_ Q]]. destruct (1 <? i); cbn in Q; intuition discriminate.
    - intros Q. apply in_map_iff in Q. destruct Q as [c [Q1 Q2]]. injection Q1 as ->. contradiction. }
  split; [exact P2|]. split; [exact WE|]. split; [exact OD|].
  intros sweeps lb' rb' cs1 HP0 EP2 HLL. destruct (prep_range T canoL canoR bigL smallL bigR smallR combL combR N _ _ _ _ HN EP2) as [Q1 Q2].
  apply (run_missing sweeps ts1 w' lb' rb' cs1 (N - 2 - lb)); auto; [congruence|]. unfold half in *. destruct (Nat.even N); lia.
Qed.
(** files of tensors that a program does not write *)
Lemma exec1_dm : forall c w w' j, exec1 c w = Ok w' -> (forall r, c <> DumpM j r) -> dm w' j = dm w j.
Proof.
  intros c w w' j H Q. destruct c as [|i|i rel|i| |n|s n|s n|s n|s n|s i|s i|s n|rt l|i|i] eqn:EC;
    try (assert (X : exec [c] w = Ok w') by (subst c; cbn [Disk.exec]; rewrite H; reflexivity);
         rewrite (exec_dm [c] w w' X); [reflexivity|intros d [<-|[]]; subst c; exact I]).
  cbn [Disk.exec1] in H. assert (ji : j <> i) by (intros ->; exact (Q rel eq_refl)).
  dst H; injection H as <-; cbn; unfold fset; destruct (Nat.eqb_spec j i); congruence.
Qed.
Lemma nexec_dm : forall p w w' j, nexec p w = Ok w' -> (forall r, ~ In (B (DumpM j r)) p) -> dm w' j = dm w j.
Proof.
  induction p as [|c p IH]; intros w w' j H Q; cbn [Noise.nexec] in H; [injection H as <-; auto|].
  destruct (nexec1 c w) as [w1| |] eqn:E1; cbn [bind] in H; try discriminate.
  rewrite (IH w1 w' j H) by (intros r X; apply (Q r); right; exact X). destruct c.
  - apply (exec1_dm _ _ _ _ E1). intros r ->. apply (Q r). left. auto.
  - destruct (upd3_files _ _ _ _ _ E1) as (_ & b & _). rewrite b. auto.
  - cbn [Noise.nexec1] in E1. injection E1 as <-. auto.
Qed.
Notation opts3 := (opts3 T E St triv grow solve3 N).
Notation rpoint3 := (rpoint3 T E St triv grow N).
Lemma rights3_some : forall lb rb m i ts s w q, lb + 2 <= rb -> rb < N -> lb <= i -> i + m <= rb - 1 -> rpoint3 lb rb ts i w -> eng w = Some s ->
  exists w', nexec (flat_map (step_right3 N lb) (seq i m) ++ q) w = nexec q w' /\
  rpoint3 lb rb (fst (opts3 (map (fun i => (true, i)) (seq i m)) (ts, s))) (i + m) w' /\ eng w' = Some (snd (opts3 (map (fun i => (true, i)) (seq i m)) (ts, s))).
Proof.
  intros lb rb m. induction m as [|m IH]; intros i ts s w q HB HRB HL HK HP HE.
  - cbn. exists w. rewrite Nat.add_0_r. auto.
  - cbn [seq flat_map map]. rewrite <- app_assoc.
    destruct (step_right3_ok T E St dT dE triv grow canoL canoR solve3 preset carry solve2 dbg N lb rb HB HRB ts i w (flat_map (step_right3 N lb) (seq (S i) m) ++ q) s) as [w1 [A1 [A2 [A3 A4]]]]; auto; [lia|].
    rewrite A1. destruct (IH (S i) _ _ w1 q HB HRB ltac:(lia) ltac:(lia) A2 A3) as [w2 [B1 [B2 B3]]]. exists w2. rewrite B1. unfold NoiseSpec.opts3 in *. cbn [fold_left].
    rewrite <- surjective_pairing in B2, B3. replace (i + S m) with (S i + m) by lia. auto.
Qed.
Lemma rights_dumps : forall lb m i j r, In (B (DumpM j r)) (flat_map (step_right3 N lb) (seq i m)) -> j < i + m.
Proof.
  clear bigL smallL bigR smallR combL combR.
  intros lb m i j r H. apply in_flat_map in H. destruct H as [a [Ha H]]. apply in_seq in Ha. unfold step_right3, load_right3, dump_right in H.
  destruct (a =? lb); cbn in H; intuition (try discriminate); match goal with Q : B (DumpM _ _) = _ |- _ => injection Q; intros; subst; lia end.
Qed.
(** the process dies on the way to the right, after [m] updates, and before the next tensor is written *)
Theorem dies_moving_right : forall lb rb k ts x w m p q, lb + 2 <= rb -> rb < N -> lb + m < rb - 1 ->
  spoint3 T E St triv grow N lb rb ts w -> start St preset carry k (eng w) = Some x ->
  step_right3 N lb (lb + m) = p ++ q -> (forall i r, ~ In (B (DumpM i r)) p) ->
  exists w', nexec ([Start k; B (NewEnvs N)] ++ flat_map (step_right3 N lb) (seq lb m) ++ p) w = Ok w' /\
    forall j, j < N -> dm (crash w') j = if (j =? lb + m) || (j =? lb + m + 1) then dm w j else Some (fst (opts3 (map (fun i => (true, i)) (seq lb m)) (ts, x)) j).
Proof.
  intros lb rb k ts x w m p q HB HRB HM HS HE HP HN.
  pose proof (sweep3_ok T E St dT dE triv grow canoL canoR solve3 preset carry solve2 dbg N lb rb HB HRB k ts x w [] HS HE) as [wf [F _]].
  rewrite app_nil_r in F. cbn [Noise.nexec] in F.
  assert (PF : exists r, sweep3 N lb rb k = ([Start k; B (NewEnvs N)] ++ flat_map (step_right3 N lb) (seq lb m) ++ p) ++ r).
  { unfold sweep3, sweep3e. replace (rb - 1 - lb) with (m + S (rb - 1 - lb - m - 1)) by lia. rewrite seq_app, flat_map_app. cbn [seq flat_map]. rewrite HP.
    exists (q ++ flat_map (step_right3 N lb) (seq (S (lb + m)) (rb - 1 - lb - m - 1)) ++ flat_map (step_left3 N rb) (rev (seq (lb + 2) (rb - (lb + 1))))). rewrite <- !app_assoc. reflexivity. }
  destruct PF as [r PF]. rewrite PF in F. destruct (nexec_prefix _ _ _ _ F) as [w' W]. exists w'. split; [exact W|]. clear F.
  destruct HS as [S1 S2 S3 S4 S5].
  pose proof W as W0. cbn [app] in W0. unfold start in HE. cbn [Noise.nexec Noise.nexec1 bind Disk.exec1] in W0. rewrite HE in W0.
  match type of W0 with nexec _ ?y = _ => set (w0 := y) in W0 end.
  destruct (rights3_some lb rb m lb ts x w0 p) as [w1 [A1 [A2 A3]]]; auto; try lia.
  { unfold w0. constructor; fs; auto; try lia.
    - intros n0 Hn. replace n0 with lb by lia. auto.
    - intros j Hj. rewrite Nat.ltb_irrefl, andb_false_r. auto. }
  rewrite A1 in W0. destruct A2 as [P1 P2 P3 P4 P5 P6 P7 P8]. intros j Hj. cbn [Disk.dm Disk.crash].
  destruct ((j =? lb + m) || (j =? lb + m + 1)) eqn:EJ.
  - apply (nexec_dm _ _ _ _ W). intros r0 Q. cbn [app] in Q. destruct Q as [Q|[Q|Q]]; try discriminate. apply in_app_or in Q. destruct Q as [Q|Q]; [|exact (HN _ _ Q)].
    apply rights_dumps in Q. apply orb_true_iff in EJ. rewrite !Nat.eqb_eq in EJ. lia.
  - rewrite (nexec_dm _ _ _ j W0) by (intros r0; apply HN). apply orb_false_iff in EJ. rewrite !Nat.eqb_neq in EJ. apply P4; lia.
Qed.
Notation lpoint3 := (lpoint3 T E St triv grow N).
Lemma lefts3_some : forall lb rb m i ts s w q, lb + 2 <= rb -> rb < N -> lb + 1 + m <= i -> i <= rb -> lpoint3 lb rb ts i w -> eng w = Some s ->
  exists w', nexec (flat_map (step_left3 N rb) (rev (seq (i + 1 - m) m)) ++ q) w = nexec q w' /\
  lpoint3 lb rb (fst (opts3 (map (fun i => (false, i - 1)) (rev (seq (i + 1 - m) m))) (ts, s))) (i - m) w' /\ eng w' = Some (snd (opts3 (map (fun i => (false, i - 1)) (rev (seq (i + 1 - m) m))) (ts, s))).
Proof.
  intros lb rb m. induction m as [|m IH]; intros i ts s w q HB HRB HL HK HP HE.
  - cbn. exists w. rewrite Nat.sub_0_r. auto.
  - replace (i + 1 - S m) with (i - 1 + 1 - m) by lia. rewrite seq_S, rev_unit. cbn [flat_map map]. rewrite <- app_assoc. replace (i - 1 + 1 - m + m) with i by lia.
    destruct (step_left3_ok T E St dT dE triv grow canoL canoR solve3 preset carry solve2 dbg N lb rb HB HRB ts i w (flat_map (step_left3 N rb) (rev (seq (i - 1 + 1 - m) m)) ++ q) s) as [w1 [A1 [A2 [A3 A4]]]]; auto; [lia|].
    rewrite A1. destruct (IH (i - 1) _ _ w1 q HB HRB ltac:(lia) ltac:(lia) A2 A3) as [w2 [B1 [B2 B3]]]. exists w2. rewrite B1. unfold NoiseSpec.opts3 in *. cbn [fold_left].
    rewrite <- surjective_pairing in B2, B3. replace (i - S m) with (i - 1 - m) by lia. auto.
Qed.
(** the process dies on the way back, after [m] updates of it, and before the next tensor is written *)
Theorem dies_moving_left : forall lb rb k ts x w m p q, lb + 2 <= rb -> rb < N -> lb + 1 + m < rb ->
  spoint3 T E St triv grow N lb rb ts w -> start St preset carry k (eng w) = Some x ->
  step_left3 N rb (rb - m) = p ++ q -> (forall i r, ~ In (B (DumpM i r)) p) ->
  let bs := map (fun i => (true, i)) (seq lb (rb - 1 - lb)) ++ map (fun i => (false, i - 1)) (rev (seq (rb + 1 - m) m)) in
  exists w', nexec ([Start k; B (NewEnvs N)] ++ flat_map (step_right3 N lb) (seq lb (rb - 1 - lb)) ++ flat_map (step_left3 N rb) (rev (seq (rb + 1 - m) m)) ++ p) w = Ok w' /\
    forall j, j < N -> j <> rb - m - 1 -> j <> rb - m -> dm (crash w') j = Some (fst (opts3 bs (ts, x)) j).
Proof.
  intros lb rb k ts x w m p q HB HRB HM HS HE HP HN bs.
  pose proof (sweep3_ok T E St dT dE triv grow canoL canoR solve3 preset carry solve2 dbg N lb rb HB HRB k ts x w [] HS HE) as [wf [F _]].
  rewrite app_nil_r in F. cbn [Noise.nexec] in F.
  assert (PF : exists r, sweep3 N lb rb k = ([Start k; B (NewEnvs N)] ++ flat_map (step_right3 N lb) (seq lb (rb - 1 - lb)) ++ flat_map (step_left3 N rb) (rev (seq (rb + 1 - m) m)) ++ p) ++ r).
  { unfold sweep3, sweep3e. replace (rb - (lb + 1)) with (S (rb - lb - 2 - m) + m) by lia. rewrite seq_app, rev_app_distr, flat_map_app. rewrite seq_S, rev_unit. cbn [flat_map].
    replace (lb + 2 + S (rb - lb - 2 - m)) with (rb + 1 - m) by lia. replace (lb + 2 + (rb - lb - 2 - m)) with (rb - m) by lia. rewrite HP.
    exists (q ++ flat_map (step_left3 N rb) (rev (seq (lb + 2) (rb - lb - 2 - m)))). rewrite <- !app_assoc. reflexivity. }
  destruct PF as [r PF]. rewrite PF in F. destruct (nexec_prefix _ _ _ _ F) as [w' W]. exists w'. split; [exact W|]. clear F.
  destruct HS as [S1 S2 S3 S4 S5]. cbn [app] in W. unfold start in HE. cbn [Noise.nexec Noise.nexec1 bind Disk.exec1] in W. rewrite HE in W.
  match type of W with nexec _ ?y = _ => set (w0 := y) in W end.
  destruct (rights3_some lb rb (rb - 1 - lb) lb ts x w0 (flat_map (step_left3 N rb) (rev (seq (rb + 1 - m) m)) ++ p)) as [w1 [A1 [A2 A3]]]; auto; try lia.
  { unfold w0. constructor; fs; auto; try lia.
    - intros n0 Hn. replace n0 with lb by lia. auto.
    - intros j Hj. rewrite Nat.ltb_irrefl, andb_false_r. auto. }
  rewrite A1 in W. unfold bs, NoiseSpec.opts3 in *. rewrite fold_left_app. replace (lb + (rb - 1 - lb)) with (rb - 1) in A2 by lia.
  destruct (fold_left (fun s b => opt3 T E St triv grow solve3 N b s) (map (fun i => (true, i)) (seq lb (rb - 1 - lb))) (ts, x)) as [ts1 e1]. cbn [fst snd] in *.
  destruct A2 as [P1 P2 P3 P4 P5 P6 P7 P8].
  destruct (lefts3_some lb rb m rb ts1 e1 w1 p) as [w2 [B1 [B2 B3]]]; auto; [lia| |].
  { constructor; auto; rewrite ?Nat.eqb_refl; auto.
    - intros j Hj. rewrite P3 by auto. replace (rb - 1 + 1) with rb by lia. auto.
    - intros j Hj H1 H2. apply P4; lia.
    - intros n0 Hn. apply P5. lia.
    - intros j Hj. rewrite P7 by auto. replace (lb <? rb - 1) with true by (symmetry; apply Nat.ltb_lt; lia). auto.
    - intros j Hj. rewrite Nat.ltb_irrefl, andb_false_r. auto. }
  rewrite B1 in W. destruct B2 as [L1 L2 L3 L4 L5 L6 L7 L8]. intros j Hj J1 J2. cbn [Disk.dm Disk.crash]. rewrite (nexec_dm _ _ _ j W) by (intros r0; apply HN). apply L4; lia.
Qed.
End Crash.
