(** The threaded run: existence of the serial run, data races, the end of the run. *)
From Coq Require Import List Arith Lia Bool.
From Verif Require Import Base Disk SweepSpec DiskFacts TwoSite TwoSiteFacts VmpsInit NoiseSpec VmpsInitFacts Noise NoiseFacts Threads ThreadsFacts ThreadsSweep.
Import ListNotations.

Section Races.
Variables (A W : Type) (ex : A -> W -> res W).
(** no schedule is infinite *)
Lemma step_acc : forall cf, Acc (fun b a => step A W ex a b) cf.
Proof. intros cf. remember (size A W cf) as n eqn:En. revert cf En. induction n as [n IH] using lt_wf_ind. intros cf ->. constructor. intros b Hb. eapply IH; [exact (step_size A W ex _ _ Hb)|reflexivity]. Qed.
Variable loc : Type.
Variables rd wr : A -> loc -> Prop.
(** the instructions that can be the next one: the head of the main program and of every thread *)
Inductive ready : conf A W -> option nat -> A -> Prop :=
  | ready_main c m ths w : ready (mkC A W (Run c :: m) ths w) None c
  | ready_thread m ths p c q w : In (p, c :: q) ths -> ready (mkC A W m ths w) (Some p) c.
Definition races (c d : A) : Prop := exists l, wr c l /\ (rd d l \/ wr d l) \/ wr d l /\ rd c l.
Lemma indep_no_race c d : indep A loc rd wr c d -> ~ races c d.
Proof. intros H (l & [(H1 & H2)|(H1 & H2)]); destruct (H l) as (X & Y); [destruct (X H1); tauto|exact (Y H1 H2)]. Qed.
Lemma inv_ready val astep Vw vf cf p q c d : NoDup (map fst (c_ths A W cf)) -> inv A W loc val astep rd wr Vw vf cf -> ready cf p c -> ready cf q d -> p <> q -> ~ races c d.
Proof.
  intros ND [_ SF AP _] H1 H2 HN. destruct H1 as [c m ths w|m ths p c q1 w HI].
  - inversion H2; subst; [congruence|]. cbn in *. apply indep_no_race. apply SF; [left; auto|]. unfold pending. apply in_flat_map. eexists. split; [eassumption|left; auto].
  - inversion H2 as [c0 m0 ths0 w0|m0 ths0 p' c0 q2 w0 HI2]; subst; cbn in *.
    + apply indep_no_race, indep_sym. apply SF; [left; auto|]. unfold pending. apply in_flat_map. eexists. split; [eassumption|left; auto].
    + apply indep_no_race. apply in_split in HI as (a & b & ->). apply apart_app in AP as (_ & (AP1 & _) & AP2).
      apply in_app_or in HI2 as [HI2|[HI2|HI2]].
      * apply indep_sym. apply AP2; [unfold pending; apply in_flat_map; eexists; split; [exact HI2|left; auto]|cbn; auto].
      * injection HI2 as -> _ _. congruence.
      * apply AP1; [left; auto|unfold pending; apply in_flat_map; eexists; split; [exact HI2|left; auto]].
Qed.
End Races.

Section Run.
Variables T E St : Type.
Variables (dT : T) (dE : E) (triv : side -> E) (grow : side -> nat -> E -> T -> E).
Variables (canoL canoR : T -> T -> T * T).
Variable solve3 : bool -> nat -> E -> T -> T -> E -> T -> St -> T * T * T * St.
Variable preset : nat -> option St.
Variable carry : St -> St.
Variable solve2 : bool -> nat -> E -> T -> T -> E -> T * T * St.
Variable dbg : bool.
Notation world := (world T E St).
Notation exec := (exec T E St dT dE triv grow solve2 canoL canoR dbg).
Notation nexec1 := (nexec1 T E St dT dE triv grow canoL canoR solve3 preset carry solve2 dbg).
Notation nexec := (nexec T E St dT dE triv grow canoL canoR solve3 preset carry solve2 dbg).
Notation nm := (nm T E St). Notation mm := (mm T E St). Notation dm := (dm T E St). Notation eng := (eng T E St). Notation tmp := (tmp T E St).
Variable N : nat.
Notation sweeps3 := (sweeps3 T E St triv grow solve3 N preset carry).
Notation start := (start St preset carry).
Variables lb rb : nat.
Hypothesis Hlr : lb + 2 <= rb.
Hypothesis HrN : rb < N.
Notation spoint3 := (spoint3 T E St triv grow N lb rb).
Notation ser_prog := (ser_prog N lb rb). Notation thr_prog := (thr_prog N lb rb).
Lemma ser_ok : forall n k ts w, spoint3 ts w -> (preset k <> None \/ eng w <> None) -> exists w', nexec (ser_prog k n) w = Ok w' /\
  spoint3 (fst (sweeps3 lb rb n k (ts, eng w))) w' /\ eng w' = snd (sweeps3 lb rb n k (ts, eng w)).
Proof.
  unfold ThreadsSweep.ser_prog. induction n as [|n IH]; intros k ts w HS HE.
  - exists w. split; [reflexivity|]. split; [exact HS|reflexivity].
  - cbn [seq flat_map NoiseSpec.sweeps3 fst snd]. fold (start k (eng w)).
    destruct (start k (eng w)) as [x|] eqn:EX.
    + destruct (sweep3e_ok T E St dT dE triv grow canoL canoR solve3 preset carry solve2 dbg N lb rb Hlr HrN (N - 1) k ts x w (flat_map (sweep3e (N - 1) N lb rb) (seq (S k) n)) (le_n _) HS EX) as [w1 [A1 [A2 [A3 A4]]]]. rewrite A1.
      destruct (IH (S k) _ w1 A2) as [w2 [B1 [B2 B3]]]; [right; rewrite A3; discriminate|].
      exists w2. rewrite B1. rewrite A3 in B2, B3. auto.
    + exfalso. unfold NoiseFacts.start in EX. destruct (preset k); [discriminate|]. destruct (eng w); [discriminate|]. destruct HE; congruence.
Qed.
(** the end of the run *)
Definition to_zero (c : nat) (ts : nat -> T) : nat -> T := fold_left (fun ts s => set2 T ts (s - 1) (canoR (ts (s - 1)) (ts s))) (rev (seq 1 c)) ts.
Record zpoint (c j : nat) (ts : nat -> T) (w : world) : Prop := {
  z_nm : nm w = N; z_mm : forall i, i < N -> mm w i = if (j <=? i) && (i <=? c) then Some (ts i) else None;
  z_dm : forall i, i < N -> i <> j -> dm w i = Some (ts i); z_low : forall i, i < j -> dm w i = Some (ts i) }.
Lemma post_steps c q : c < N -> forall k ts w, k <= c -> zpoint c k ts w -> exists w',
  exec (flat_map (fun s => [LoadM (s - 1); CanoR s; DumpM s false]) (rev (seq 1 k)) ++ q) w = exec q w' /\ zpoint c 0 (to_zero k ts) w' /\ tmp w' = tmp w.
Proof.
  intros HC. induction k as [|k IH]; intros ts w HK [Z1 Z2 Z3 Z4].
  - exists w. split; [reflexivity|]. split; [constructor; auto|auto].
  - rewrite seq_S, rev_unit. cbn [flat_map app]. replace (1 + k) with (S k) by lia. replace (S k - 1) with k by lia.
    rewrite (ex_LoadM _ _ _ _ _ _ _ _ _ _ _ _ _ _ (ts k)); [|lia|apply Z4; lia].
    assert (EK : mm w (S k) = Some (ts (S k))). { rewrite Z2 by lia. rewrite Nat.leb_refl. replace (S k <=? c) with true by (symmetry; apply Nat.leb_le; lia). auto. }
    rewrite (ex_CanoR _ _ _ _ _ _ _ _ _ _ _ _ _ _ (ts k) (ts (S k))); [|cbn; lia|replace (S k - 1) with k by lia; cbn; unfold fset; rewrite Nat.eqb_refl; auto|cbn [Disk.mm set_mm]; unfold fset; destruct (Nat.eqb_spec (S k) k); [lia|exact EK]].
    set (ab := canoR (ts k) (ts (S k))).
    rewrite (ex_DumpM _ _ _ _ _ _ _ _ _ _ _ _ _ _ _ (snd ab)); [|cbn; lia|cbn; unfold fset; rewrite Nat.eqb_refl; auto].
    match goal with |- exists w', exec _ ?x = _ /\ _ => set (w1 := x) end.
    destruct (IH (set2 T ts k ab) w1) as (w' & A1 & A2 & A3); [lia| |].
    + unfold w1, set2. constructor; cbn; auto.
      * intros i Hi. replace (k - 0) with k by lia. unfold fset. replace (k + 1) with (S k) by lia.
        destruct (Nat.eqb_spec i (S k)) as [->|H1]; [destruct (Nat.leb_spec k (S k)), (Nat.leb_spec (S k) c); auto; lia|].
        destruct (Nat.eqb_spec i k) as [->|H2]; [destruct (Nat.leb_spec k k), (Nat.leb_spec k c); auto; lia|].
        rewrite Z2 by auto. destruct (Nat.leb_spec k i), (Nat.leb_spec (S k) i); auto; lia.
      * intros i Hi H1. unfold fset. replace (k + 1) with (S k) by lia. destruct (Nat.eqb_spec i (S k)); [auto|]. destruct (Nat.eqb_spec i k); [lia|]. apply Z3; lia.
      * intros i Hi. unfold fset. replace (k + 1) with (S k) by lia. destruct (Nat.eqb_spec i (S k)); [lia|]. destruct (Nat.eqb_spec i k); [lia|]. apply Z4; lia.
    + exists w'. split; [exact A1|]. split; [|exact A3].
      replace (to_zero (S k) ts) with (to_zero k (set2 T ts k ab)); auto. unfold to_zero. rewrite seq_S, rev_unit. cbn [fold_left]. replace (1 + k) with (S k) by lia. replace (S k - 1) with k by lia. reflexivity.
Qed.
Lemma post_ok ts w : nm w = N -> mem_empty T E St N w -> on_disk T E St N ts w -> exists w', exec (post_prog lb) w = Ok w' /\ nm w' = N /\
  on_disk T E St N (to_zero (lb + 1) ts) w' /\ (forall i, i < N -> mm w' i = if i <=? lb + 1 then Some (to_zero (lb + 1) ts i) else None).
Proof.
  intros W1 W2 W3. unfold post_prog. cbn [app]. rewrite (ex_LoadM _ _ _ _ _ _ _ _ _ _ _ _ _ _ (ts (lb + 1))); [|lia|apply W3; lia].
  match goal with |- exists w', exec _ ?x = _ /\ _ => set (w1 := x) end.
  destruct (post_steps (lb + 1) [DumpM 0 false] ltac:(lia) (lb + 1) ts w1 (le_n _)) as (w2 & A1 & [Z1 Z2 Z3 Z4] & A3).
  { unfold w1. constructor; cbn; auto.
    - intros i Hi. unfold fset. destruct (Nat.eqb_spec i (lb + 1)) as [->|H]; [rewrite Nat.leb_refl; auto|]. rewrite W2 by auto. destruct (Nat.leb_spec (lb + 1) i), (Nat.leb_spec i (lb + 1)); auto; lia.
    - intros i Hi. apply W3. lia. }
  rewrite A1. assert (E0 : mm w2 0 = Some (to_zero (lb + 1) ts 0)) by (rewrite Z2 by lia; auto).
  rewrite (ex_DumpM _ _ _ _ _ _ _ _ _ _ _ _ _ _ _ (to_zero (lb + 1) ts 0)); [|lia|exact E0].
  eexists. split; [reflexivity|]. cbn. split; auto. split.
  - intros i Hi. cbn. unfold fset. destruct (Nat.eqb_spec i 0) as [->|H]; auto.
  - intros i Hi. unfold fset. destruct (Nat.eqb_spec i 0) as [->|H]; auto. rewrite Z2 by auto. destruct (Nat.leb_spec 0 i); [|lia]. auto.
Qed.
End Run.
