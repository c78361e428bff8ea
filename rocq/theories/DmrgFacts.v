(** The DMRG executor refines sweeps in memory, for every schedule of signals. *)
From Coq Require Import List Arith Lia Bool.
From Verif Require Import Base Disk SweepSpec DiskFacts TwoSite TwoSiteFacts VmpsInit NoiseSpec VmpsInitFacts Dmrg DmrgSpec.
Import ListNotations.

Section Facts.
Variables T C En : Type.
Variables (dT : T) (rows cols : nat -> nat) (trivc : side -> C) (growc : side -> nat -> list C -> T -> list C).
Variable solve : bool -> nat -> list C -> T -> T -> list C -> T * T * En.
Variables (canoL canoR : T -> T -> T * T).
Variables (bigL smallL bigR smallR : T -> bool) (combL combR : T -> T -> T * T).
Variable dbg : bool.
Variable arr : nat -> bool * bool.
Notation world := (world T unit En).
Notation usolve := (fun rt l (_ : unit) a b (_ : unit) => solve rt l [] a b []).
Notation exec := (exec T unit En dT tt (fun _ => tt) (fun _ _ _ _ => tt) usolve canoL canoR dbg).
Notation nm := (nm T unit En). Notation mm := (mm T unit En). Notation dm := (dm T unit En).
Notation eng := (eng T unit En). Notation tmp := (tmp T unit En).
Notation dst := (dst T C En).
Notation W := (W T C En). Notation lg := (lg T C En). Notation rg := (rg T C En). Notation op := (op T C En).
Notation stp := (stp T C En). Notation emg := (emg T C En). Notation clk := (clk T C En).
Notation run := (run T C En dT solve canoL canoR dbg).
Notation setG := (setG T C En). Notation getG := (getG T C En).
Notation write_group := (write_group T C En dbg). Notation read_group := (read_group T C En). Notation remove_group := (remove_group T C En).
Notation grow_group := (grow_group T C rows cols growc dbg).
Notation load_step := (load_step T C En dT rows cols solve canoL canoR dbg).
Notation update_step := (update_step T C En rows cols growc solve dbg).
Notation dump_step := (dump_step T C En dT solve canoL canoR dbg).
Notation step := (step T C En dT rows cols growc solve canoL canoR dbg).
Notation emergency := (emergency T C En dT solve canoL canoR dbg).
Notation sweep_from := (sweep_from T C En dT rows cols growc solve canoL canoR dbg arr).
Notation sweeps := (sweeps T C En dT rows cols growc solve canoL canoR dbg arr).
Notation init_ops := (init_ops T C En dT rows cols trivc growc solve canoL canoR dbg).
Notation boundary_ops := (boundary_ops T C En dT rows cols trivc growc solve canoL canoR dbg).
Notation dmrg_init := (dmrg_init T C En dT rows cols trivc growc solve canoL canoR bigL smallL bigR smallR combL combR dbg).
Notation execute := (execute T C En dT rows cols trivc growc solve canoL canoR bigL smallL bigR smallR combL combR dbg arr).
Variable N : nat.
Notation triv := (fun s => [trivc s]).
Notation left_env := (left_env T (list C) triv growc). Notation right_env := (right_env T (list C) triv growc N).
Notation opt := (opt T (list C) En triv growc solve N). Notation opts := (opts T (list C) En triv growc solve N).
Notation sweeps_spec := (sweeps_spec T (list C) En triv growc solve N).
Notation prep := (prep T canoL canoR bigL smallL bigR smallR combL combR N).

(** shapes: the MPO matrices fit together, updates produce one operator per column / row *)
Hypothesis shape0 : rows 0 = 1.
Hypothesis shapeN : cols (N - 1) = 1.
Hypothesis shapeS : forall i, i + 1 < N -> cols i = rows (i + 1).
Hypothesis lenL : forall i g t, length g = rows i -> length (growc L i g t) = cols i.
Hypothesis lenR : forall i g t, length g = cols i -> length (growc R i g t) = rows i.

Lemma left_len : forall ts k, k < N -> length (left_env ts k) = rows k.
Proof. induction k; intros H; cbn [SweepSpec.left_env]; [cbn; auto|]. rewrite lenL by (apply IHk; lia). rewrite shapeS by lia. f_equal. lia. Qed.
Lemma right_len : forall ts k, k < N -> length (right_env ts k) = cols (N - 1 - k).
Proof.
  induction k; intros H; cbn [SweepSpec.right_env]; [cbn; rewrite Nat.sub_0_r; auto|]. rewrite lenR by (apply IHk; lia).
  replace (N - 1 - k) with (N - 1 - S k + 1) by lia. rewrite shapeS by lia. auto.
Qed.

(** *** pieces *)
Lemma run_exec : forall p d w, exec p (W d) = Ok w -> run p d = Ok (setW T C En w d).
Proof. intros p d w H. unfold Dmrg.run. rewrite H. auto. Qed.
Lemma full_map : forall l : list C, full C (map Some l) = Ok l.
Proof. induction l; cbn; auto. rewrite IHl. auto. Qed.
Lemma read_ok : forall s n g size d, on_file (op d) s n g -> length g = size -> read_group s n size d = map Some g.
Proof.
  intros s n g size d H HL. unfold Dmrg.read_group. apply nth_error_ext. intros c.
  destruct (Nat.lt_ge_cases c size) as [Hc|Hc].
  - rewrite nth_error_map. rewrite nth_error_nth' with (d := 0) by (rewrite seq_length; auto). rewrite seq_nth by auto. cbn.
    rewrite H by lia. rewrite nth_error_map. destruct (nth_error g c) eqn:E; auto. apply nth_error_None in E. lia.
  - transitivity (@None (option C)); [|symmetry]; apply nth_error_None; rewrite map_length, ?seq_length; lia.
Qed.
Lemma write_ok : forall s n l d, write_group s n (map Some l) d =
  Ok (set_op T C En (fun s' m c => if sideb s s' && (m =? n) && (c <? length l) then nth_error l c else op d s' m c) d).
Proof. intros. unfold Dmrg.write_group. rewrite full_map. auto. Qed.
Lemma grow_ok : forall s i l t, length l = (match s with L => rows i | R => cols i end) -> grow_group s i (map Some l) t = Ok (map Some (growc s i l t)).
Proof. intros. unfold Dmrg.grow_group. rewrite full_map. cbn [bind]. rewrite H, Nat.eqb_refl. auto. Qed.
Lemma on_file_ext : forall (o o' : side -> nat -> nat -> option C) s n g, (forall c, o' s n c = o s n c) -> on_file o s n g -> on_file o' s n g.
Proof. intros o o' s n g H H1 c Hc. rewrite H. auto. Qed.
Definition same_flags (d d' : dst) : Prop := stp d' = stp d /\ emg d' = emg d /\ clk d' = clk d.

Record loaded (ts : nat -> T) (l : nat) (d : dst) : Prop := {
  ld_nm : nm (W d) = N;
  ld_mm : forall j, j < N -> mm (W d) j = if (j =? l) || (j =? l + 1) then Some (ts j) else None;
  ld_l : lg d l = map Some (left_env ts l);
  ld_r : rg d (N - 1 - (l + 1)) = map Some (right_env ts (N - 1 - (l + 1))) }.

Lemma update_dump_right : forall ts l d a b x, l + 1 < N -> loaded ts l d ->
  solve true l (left_env ts l) (ts l) (ts (l + 1)) (right_env ts (N - (l + 2))) = (a, b, x) ->
  exists d', (let! d := update_step true l d in dump_step true l d) = Ok d' /\ same_flags d d' /\
    nm (W d') = N /\ (forall j, j < N -> mm (W d') j = if j =? l + 1 then Some b else None) /\
    dm (W d') l = Some a /\ (forall j, j <> l -> dm (W d') j = dm (W d) j) /\
    lg d' (l + 1) = map Some (growc L l (left_env ts l) a) /\
    on_file (op d') L (l + 1) (growc L l (left_env ts l) a) /\ (forall s n c, s = R \/ n <> l + 1 -> op d' s n c = op d s n c) /\
    eng (W d') = Some x /\ tmp (W d') = tmp (W d).
Proof.
  intros ts l d a b x HN [D1 D2 D3 D4] HS.
  assert (ML : mm (W d) l = Some (ts l)) by (rewrite D2 by lia; rewrite Nat.eqb_refl; auto).
  assert (MR : mm (W d) (l + 1) = Some (ts (l + 1))) by (rewrite D2 by lia; rewrite Nat.eqb_refl, orb_true_r; auto).
  assert (LL := left_len ts l ltac:(lia)). assert (LR := right_len ts (N - 1 - (l + 1)) ltac:(lia)). replace (N - 1 - (N - 1 - (l + 1))) with (l + 1) in LR by lia.
  unfold Dmrg.update_step, Dmrg.getG. rewrite D1. rewrite !ltb_t by lia. cbn [bind]. rewrite D3, D4, !full_map. cbn [bind]. rewrite LL, LR, !Nat.eqb_refl. cbn [andb negb].
  unfold Disk.getM. rewrite D1, !ltb_t by lia. rewrite ML, MR. cbn [bind use].
  replace (N - 1 - (l + 1)) with (N - (l + 2)) in * by lia. rewrite HS.
  unfold Disk.putM. rewrite D1, ltb_t by lia. cbn [bind Disk.nm set_mm]. rewrite D1, ltb_t by lia. cbn [bind].
  unfold Dmrg.setG. cbn [Dmrg.W setW Disk.nm set_eng set_mm]. rewrite D1, ltb_t by lia. cbn [bind]. rewrite grow_ok by auto. cbn [bind Dmrg.W Disk.nm set_eng set_mm].
  rewrite D1, ltb_t by lia. cbn [bind].
  unfold Dmrg.dump_step. cbn [Dmrg.W Disk.nm set_eng set_mm]. rewrite D1. unfold Dmrg.setG. cbn [Dmrg.W Disk.nm set_eng set_mm]. rewrite D1, !ltb_t by lia. cbn [bind Dmrg.W Disk.nm set_eng set_mm].
  rewrite D1, !ltb_t by lia. cbn [bind Dmrg.W Disk.nm set_eng set_mm].
  rewrite (run_exec [DumpM l true] _ (set_dm T unit En (fset (dm (W d)) l (Some a)) (set_mm T unit En (fset (fset (fset (mm (W d)) l (Some a)) (l + 1) (Some b)) l None) (set_eng T unit En (Some x) (W d))))).
  2: { rewrite (ex_DumpM _ _ _ _ _ _ _ _ _ _ _ _ _ _ _ a); [reflexivity|cbn; lia|cbn; fs; auto]. }
  cbn [bind]. unfold Dmrg.getG. cbn [Dmrg.W setW Disk.nm set_eng set_mm set_dm]. rewrite D1, ltb_t by lia. cbn [bind setW Dmrg.lg Dmrg.rg].
  unfold fset at 1. replace (l + 1 =? l) with false by (symmetry; apply Nat.eqb_neq; lia). rewrite fset_same. rewrite write_ok.
  eexists. split; [reflexivity|]. split; [repeat split|]. cbn [Dmrg.W setW set_op Disk.nm set_eng set_mm set_dm Disk.mm Disk.dm Dmrg.lg Dmrg.op Disk.eng Disk.tmp].
  split; [auto|]. split.
  { intros j Hj. specialize (D2 j Hj). unfold fset. destruct (Nat.eqb_spec j l), (Nat.eqb_spec j (l + 1)); auto; lia. }
  split; [fs; auto|]. split; [intros j Hj; fs; auto|].
  split; [unfold fset; replace (l + 1 =? l) with false by (symmetry; apply Nat.eqb_neq; lia); rewrite Nat.eqb_refl; auto|].
  split; [|split; auto].
  - intros c Hc. cbn [Dmrg.op set_op sideb]. rewrite Nat.eqb_refl. cbn [andb]. rewrite ltb_t by auto. auto.
  - intros s n c [->|Hn]; cbn [sideb]; auto. replace (n =? l + 1) with false by (symmetry; apply Nat.eqb_neq; auto). rewrite andb_false_r. auto.
Qed.
Lemma update_dump_left : forall ts l d a b x, l + 1 < N -> loaded ts l d ->
  solve false l (left_env ts l) (ts l) (ts (l + 1)) (right_env ts (N - (l + 2))) = (a, b, x) ->
  exists d', (let! d := update_step false l d in dump_step false l d) = Ok d' /\ same_flags d d' /\
    nm (W d') = N /\ (forall j, j < N -> mm (W d') j = if j =? l then Some a else None) /\
    dm (W d') (l + 1) = Some b /\ (forall j, j <> l + 1 -> dm (W d') j = dm (W d) j) /\
    rg d' (N - 1 - l) = map Some (growc R (l + 1) (right_env ts (N - (l + 2))) b) /\
    on_file (op d') R (N - 1 - l) (growc R (l + 1) (right_env ts (N - (l + 2))) b) /\ (forall s n c, s = L \/ n <> N - 1 - l -> op d' s n c = op d s n c) /\
    eng (W d') = Some x /\ tmp (W d') = tmp (W d).
Proof.
  intros ts l d a b x HN [D1 D2 D3 D4] HS.
  assert (ML : mm (W d) l = Some (ts l)) by (rewrite D2 by lia; rewrite Nat.eqb_refl; auto).
  assert (MR : mm (W d) (l + 1) = Some (ts (l + 1))) by (rewrite D2 by lia; rewrite Nat.eqb_refl, orb_true_r; auto).
  assert (LL := left_len ts l ltac:(lia)). assert (LR := right_len ts (N - 1 - (l + 1)) ltac:(lia)). replace (N - 1 - (N - 1 - (l + 1))) with (l + 1) in LR by lia.
  unfold Dmrg.update_step, Dmrg.getG. rewrite D1. rewrite !ltb_t by lia. cbn [bind]. rewrite D3, D4, !full_map. cbn [bind]. rewrite LL, LR, !Nat.eqb_refl. cbn [andb negb].
  unfold Disk.getM. rewrite D1, !ltb_t by lia. rewrite ML, MR. cbn [bind use].
  replace (N - 1 - (l + 1) + 1) with (N - 1 - l) by lia.
  replace (N - 1 - (l + 1)) with (N - (l + 2)) in * by lia. rewrite HS.
  unfold Disk.putM. rewrite D1, ltb_t by lia. cbn [bind Disk.nm set_mm]. rewrite D1, ltb_t by lia. cbn [bind].
  unfold Dmrg.setG. cbn [Dmrg.W setW Disk.nm set_eng set_mm]. rewrite D1, ltb_t by lia. cbn [bind]. rewrite grow_ok by auto. cbn [bind Dmrg.W Disk.nm set_eng set_mm].
  rewrite D1, ltb_t by lia. cbn [bind].
  unfold Dmrg.dump_step. cbn [Dmrg.W Disk.nm set_eng set_mm]. rewrite D1. unfold Dmrg.setG. cbn [Dmrg.W Disk.nm set_eng set_mm]. rewrite D1, !ltb_t by lia. cbn [bind Dmrg.W Disk.nm set_eng set_mm].
  rewrite D1, !ltb_t by lia. cbn [bind Dmrg.W Disk.nm set_eng set_mm].
  rewrite (run_exec [DumpM (l + 1) true] _ (set_dm T unit En (fset (dm (W d)) (l + 1) (Some b)) (set_mm T unit En (fset (fset (fset (mm (W d)) l (Some a)) (l + 1) (Some b)) (l + 1) None) (set_eng T unit En (Some x) (W d))))).
  2: { rewrite (ex_DumpM _ _ _ _ _ _ _ _ _ _ _ _ _ _ _ b); [reflexivity|cbn; lia|cbn; fs; auto]. }
  cbn [bind]. unfold Dmrg.getG. cbn [Dmrg.W setW Disk.nm set_eng set_mm set_dm]. rewrite D1, ltb_t by lia. cbn [bind setW Dmrg.lg Dmrg.rg].
  unfold fset at 1. replace (N - 1 - l =? N - 1 - (l + 1)) with false by (symmetry; apply Nat.eqb_neq; lia). rewrite fset_same. rewrite write_ok.
  eexists. split; [reflexivity|]. split; [repeat split|]. cbn [Dmrg.W setW set_op Disk.nm set_eng set_mm set_dm Disk.mm Disk.dm Dmrg.rg Dmrg.op Disk.eng Disk.tmp].
  split; [auto|]. split.
  { intros j Hj. specialize (D2 j Hj). unfold fset. destruct (Nat.eqb_spec j l), (Nat.eqb_spec j (l + 1)); auto; lia. }
  split; [fs; auto|]. split; [intros j Hj; fs; auto|].
  split; [unfold fset; replace (N - 1 - l =? N - 1 - (l + 1)) with false by (symmetry; apply Nat.eqb_neq; lia); rewrite Nat.eqb_refl; auto|].
  split; [|split; auto].
  - intros c Hc. cbn [Dmrg.op set_op sideb]. rewrite Nat.eqb_refl. cbn [andb]. rewrite ltb_t by auto. auto.
  - intros s n c [->|Hn]; cbn [sideb]; auto. replace (n =? N - 1 - l) with false by (symmetry; apply Nat.eqb_neq; auto). rewrite andb_false_r. auto.
Qed.

Variables lb rb : nat.
Hypothesis Hlr : lb + 2 <= rb.
Hypothesis HrN : rb < N.

(** one tensor, of site m, in memory; all others on disk; right groups up to length rhi, left groups up to length lhi on disk *)
Record point (ts : nat -> T) (m lhi rhi : nat) (d : dst) : Prop := {
  pt_nm : nm (W d) = N;
  pt_mm : forall j, j < N -> mm (W d) j = if j =? m then Some (ts j) else None;
  pt_dm : forall j, j < N -> j <> m -> dm (W d) j = Some (ts j);
  pt_r : forall n, N - 1 - rb <= n <= rhi -> on_file (op d) R n (right_env ts n);
  pt_l : forall n, lb <= n <= lhi -> on_file (op d) L n (left_env ts n) }.
Definition rpoint (ts : nat -> T) (i : nat) (d : dst) : Prop :=
  point ts (if i =? lb then lb + 1 else i) i (N - 2 - i) d /\ (lb < i -> lg d i = map Some (left_env ts i)) /\
  (lb < i -> forall c, c < cols (lb + 1) -> op d R (N - 2 - lb) c = None).
Definition lpoint (ts : nat -> T) (i : nat) (d : dst) : Prop :=
  point ts (if i =? rb then rb - 1 else i) (i - 1) (N - 1 - i) d /\ (i < rb -> rg d (N - 1 - i) = map Some (right_env ts (N - 1 - i))) /\
  (lb + 1 < i -> forall c, c < cols (lb + 1) -> op d R (N - 2 - lb) c = None).

Ltac dd := cbn [Dmrg.W setW set_op Disk.nm set_eng set_mm set_dm Disk.mm Disk.dm Dmrg.lg Dmrg.rg Dmrg.op Disk.eng Disk.tmp bind Dmrg.remove_group Dmrg.stp Dmrg.emg Dmrg.clk].
Lemma load_right_ok : forall ts i d, lb <= i -> i < rb - 1 -> rpoint ts i d -> exists d', load_step lb rb true i d = Ok d' /\ same_flags d d' /\ loaded ts i d' /\
  dm (W d') = dm (W d) /\ eng (W d') = eng (W d) /\ tmp (W d') = tmp (W d) /\
  (forall s n c, s = L \/ n <> N - 2 - i -> op d' s n c = op d s n c) /\ (forall c, c < cols (i + 1) -> op d' R (N - 2 - i) c = None).
Proof.
  intros ts i d HL HI [[P1 P2 P3 P4 P5] [P6 P7]]. unfold Dmrg.load_step. rewrite P1.
  assert (LL := left_len ts i ltac:(lia)). assert (LR := right_len ts (N - 1 - (i + 1)) ltac:(lia)). replace (N - 1 - (N - 1 - (i + 1))) with (i + 1) in LR by lia.
  replace (N - 1 - (i + 1)) with (N - 2 - i) in * by lia.
  destruct (Nat.eqb_spec i lb) as [->|NE].
  - rewrite (run_exec _ _ (set_mm T unit En (fset (mm (W d)) lb (Some (ts lb))) (W d))) by (rewrite (ex_LoadM _ _ _ _ _ _ _ _ _ _ _ _ _ _ (ts lb)); [reflexivity|lia|apply P3; lia]).
    dd. unfold Dmrg.setG at 1. dd. rewrite P1, ltb_t by lia. dd. rewrite (read_ok L lb (left_env ts lb)) by (first [solve [auto] | dd; apply P5; lia]).
    unfold Dmrg.setG. dd. rewrite P1, ltb_t by lia. dd. rewrite (read_ok R (N - 2 - lb) (right_env ts (N - 2 - lb))) by (first [solve [auto] | dd; apply P4; lia]).
    eexists. split; [reflexivity|]. split; [repeat split|]. split; [constructor|]; dd; auto.
    + intros j Hj. rewrite ?P2 by lia. unfold fset. destruct (Nat.eqb_spec j lb); subst; auto; try lia. cbn [orb]. rewrite P2 by lia. auto.
    + fs. auto.
    + replace (N - 1 - (lb + 1)) with (N - 2 - lb) by lia. fs. auto.
    + split; [auto|]. split; [auto|]. split; [auto|]. split.
      * intros s n c [->|Hn]; cbn [sideb]; auto. replace (n =? N - 2 - lb) with false by (symmetry; apply Nat.eqb_neq; auto). rewrite andb_false_r. auto.
      * intros c Hc. cbn [sideb]. rewrite Nat.eqb_refl, ltb_t by auto. auto.
  - rewrite (run_exec _ _ (set_mm T unit En (fset (mm (W d)) (i + 1) (Some (ts (i + 1)))) (W d))) by (rewrite (ex_LoadM _ _ _ _ _ _ _ _ _ _ _ _ _ _ (ts (i + 1))); [reflexivity|lia|apply P3; lia]).
    dd. unfold Dmrg.setG. dd. rewrite P1, ltb_t by lia. dd. rewrite (read_ok R (N - 2 - i) (right_env ts (N - 2 - i))) by (first [solve [auto] | dd; apply P4; lia]).
    eexists. split; [reflexivity|]. split; [repeat split|]. split; [constructor|]; dd; auto.
    + intros j Hj. unfold fset. destruct (Nat.eqb_spec j (i + 1)); subst; auto; try lia; [rewrite orb_true_r; auto|]. rewrite orb_false_r. rewrite P2 by lia. auto.
    + apply P6. lia.
    + replace (N - 1 - (i + 1)) with (N - 2 - i) by lia. fs. auto.
    + split; [auto|]. split; [auto|]. split; [auto|]. split.
      * intros s n c [->|Hn]; cbn [sideb]; auto. replace (n =? N - 2 - i) with false by (symmetry; apply Nat.eqb_neq; auto). rewrite andb_false_r. auto.
      * intros c Hc. cbn [sideb]. rewrite Nat.eqb_refl, ltb_t by auto. auto.
Qed.
Lemma load_left_ok : forall ts i d, lb + 1 < i -> i <= rb -> lpoint ts i d -> exists d', load_step lb rb false (i - 1) d = Ok d' /\ same_flags d d' /\ loaded ts (i - 1) d' /\
  dm (W d') = dm (W d) /\ eng (W d') = eng (W d) /\ tmp (W d') = tmp (W d) /\
  (forall s n c, s = R \/ n <> i - 1 -> op d' s n c = op d s n c).
Proof.
  intros ts i d HL HI [[P1 P2 P3 P4 P5] [P6 P7]]. unfold Dmrg.load_step. rewrite P1. replace (i - 1 + 1) with i by lia.
  assert (LL := left_len ts (i - 1) ltac:(lia)). assert (LR := right_len ts (N - 1 - i) ltac:(lia)). replace (N - 1 - (N - 1 - i)) with i in LR by lia.
  destruct (Nat.eqb_spec i rb) as [->|NE].
  - rewrite (run_exec _ _ (set_mm T unit En (fset (mm (W d)) rb (Some (ts rb))) (W d))) by (rewrite (ex_LoadM _ _ _ _ _ _ _ _ _ _ _ _ _ _ (ts rb)); [reflexivity|lia|apply P3; lia]).
    dd. unfold Dmrg.setG at 1. dd. rewrite P1, ltb_t by lia. dd. rewrite (read_ok R (N - 1 - rb) (right_env ts (N - 1 - rb))) by (first [solve [auto] | dd; apply P4; lia]).
    unfold Dmrg.setG. dd. rewrite P1, ltb_t by lia. dd. rewrite (read_ok L (rb - 1) (left_env ts (rb - 1))) by (first [solve [auto] | dd; apply P5; lia]).
    eexists. split; [reflexivity|]. split; [repeat split|]. split; [constructor|]; dd; auto.
    + intros j Hj. replace (rb - 1 + 1) with rb by lia. unfold fset. destruct (Nat.eqb_spec j rb); subst; auto; try lia; [rewrite orb_true_r; auto|]. rewrite orb_false_r. rewrite P2 by lia. auto.
    + fs. auto.
    + replace (rb - 1 + 1) with rb by lia. fs. auto.
    + repeat (split; auto). intros s n c [->|Hn]; cbn [sideb]; auto. replace (n =? rb - 1) with false by (symmetry; apply Nat.eqb_neq; auto). rewrite andb_false_r. auto.
  - rewrite (run_exec _ _ (set_mm T unit En (fset (mm (W d)) (i - 1) (Some (ts (i - 1)))) (W d))) by (rewrite (ex_LoadM _ _ _ _ _ _ _ _ _ _ _ _ _ _ (ts (i - 1))); [reflexivity|lia|apply P3; lia]).
    dd. unfold Dmrg.setG. dd. rewrite P1, ltb_t by lia. dd. rewrite (read_ok L (i - 1) (left_env ts (i - 1))) by (first [solve [auto] | dd; apply P5; lia]).
    eexists. split; [reflexivity|]. split; [repeat split|]. split; [constructor|]; dd; auto.
    + intros j Hj. replace (i - 1 + 1) with i by lia. unfold fset. destruct (Nat.eqb_spec j (i - 1)); subst; auto; try lia. cbn [orb]. rewrite P2 by lia. auto.
    + fs. auto.
    + replace (i - 1 + 1) with i by lia. apply P6. lia.
    + repeat (split; auto). intros s n c [->|Hn]; cbn [sideb]; auto. replace (n =? i - 1) with false by (symmetry; apply Nat.eqb_neq; auto). rewrite andb_false_r. auto.
Qed.
Lemma same_flags_trans : forall a b c, same_flags a b -> same_flags b c -> same_flags a c.
Proof. intros a b c [A1 [A2 A3]] [B1 [B2 B3]]. repeat split; congruence. Qed.

Lemma step_right_ok : forall ts i d e, lb <= i -> i < rb - 1 -> rpoint ts i d -> exists d', step lb rb (true, i) d = Ok d' /\ same_flags d d' /\
  rpoint (fst (opt (true, i) (ts, e))) (S i) d' /\ eng (W d') = snd (opt (true, i) (ts, e)) /\ tmp (W d') = tmp (W d).
Proof.
  intros ts i d e HL HI HP. destruct (load_right_ok ts i d HL HI HP) as [d1 [A1 [A2 [A3 [A4 [A5 [A6 [A7 A8]]]]]]]].
  unfold SweepSpec.opt. destruct (solve true i (left_env ts i) (ts i) (ts (i + 1)) (right_env ts (N - (i + 2)))) as [[a b] x] eqn:ES. cbn [fst snd].
  destruct (update_dump_right ts i d1 a b x ltac:(lia) A3 ES) as [d2 [B1 [B2 [B3 [B4 [B5 [B6 [B7 [B8 [B9 [B10 B11]]]]]]]]]]].
  unfold Dmrg.step. rewrite A1. cbn [bind]. rewrite B1. exists d2. split; auto. split; [eapply same_flags_trans; eauto|].
  set (ts' := fset (fset ts i a) (i + 1) b). destruct HP as [[P1 P2 P3 P4 P5] [P6 P7]].
  assert (EL : forall n, n <= i -> left_env ts' n = left_env ts n) by (intros n Hn; apply left_env_ext; intros j Hj; unfold ts'; fs; auto).
  assert (ER : forall n, n <= N - 2 - i -> right_env ts' n = right_env ts n) by (intros n Hn; apply right_env_ext; [lia|]; intros j Hj; unfold ts'; fs; auto).
  assert (EN : left_env ts' (i + 1) = growc L i (left_env ts i) a) by (replace (i + 1) with (S i) by lia; cbn [SweepSpec.left_env]; rewrite EL by lia; f_equal; unfold ts'; fs; auto).
  split; [|split; congruence]. replace (S i) with (i + 1) by lia. split.
  - replace (i + 1 =? lb) with false by (symmetry; apply Nat.eqb_neq; lia). constructor; auto.
    + intros j Hj. rewrite B4 by auto. destruct (Nat.eqb_spec j (i + 1)); auto. subst. unfold ts'. fs. auto.
    + intros j Hj Hn. unfold ts'. destruct (Nat.eq_dec j i) as [->|Hni]; [fs; auto|]. rewrite B6 by auto. fs. rewrite A4. destruct (Nat.eqb_spec i lb); apply P3; lia.
    + intros n Hn. rewrite ER by lia. apply (on_file_ext (op d)); [|apply P4; lia]. intros c. rewrite B9 by auto. apply A7. right. lia.
    + intros n Hn. destruct (Nat.eq_dec n (i + 1)) as [->|Hni]; [rewrite EN; auto|]. rewrite EL by lia. apply (on_file_ext (op d)); [|apply P5; lia]. intros c. rewrite B9 by auto. apply A7. auto.
  - split; [intros _; rewrite EN; auto|]. intros _ c Hc. rewrite B9 by auto. destruct (Nat.eq_dec i lb) as [->|Hi]; [apply A8; auto|]. rewrite A7 by (right; lia). apply P7; auto. lia.
Qed.
Lemma step_left_ok : forall ts i d e, lb + 1 < i -> i <= rb -> lpoint ts i d -> exists d', step lb rb (false, i - 1) d = Ok d' /\ same_flags d d' /\
  lpoint (fst (opt (false, i - 1) (ts, e))) (i - 1) d' /\ eng (W d') = snd (opt (false, i - 1) (ts, e)) /\ tmp (W d') = tmp (W d).
Proof.
  intros ts i d e HL HI HP. destruct (load_left_ok ts i d HL HI HP) as [d1 [A1 [A2 [A3 [A4 [A5 [A6 A7]]]]]]].
  unfold SweepSpec.opt. destruct (solve false (i - 1) (left_env ts (i - 1)) (ts (i - 1)) (ts (i - 1 + 1)) (right_env ts (N - (i - 1 + 2)))) as [[a b] x] eqn:ES. cbn [fst snd].
  destruct (update_dump_left ts (i - 1) d1 a b x ltac:(lia) A3 ES) as [d2 [B1 [B2 [B3 [B4 [B5 [B6 [B7 [B8 [B9 [B10 B11]]]]]]]]]]].
  unfold Dmrg.step. rewrite A1. cbn [bind]. rewrite B1. exists d2. split; auto. split; [eapply same_flags_trans; eauto|].
  replace (i - 1 + 1) with i in * by lia. replace (N - (i - 1 + 2)) with (N - 1 - i) in * by lia.
  set (ts' := fset (fset ts (i - 1) a) i b). destruct HP as [[P1 P2 P3 P4 P5] [P6 P7]].
  assert (EL : forall n, n <= i - 1 -> left_env ts' n = left_env ts n) by (intros n Hn; apply left_env_ext; intros j Hj; unfold ts'; fs; auto).
  assert (ER : forall n, n <= N - 1 - i -> right_env ts' n = right_env ts n) by (intros n Hn; apply right_env_ext; [lia|]; intros j Hj; unfold ts'; fs; auto).
  assert (EN : right_env ts' (N - 1 - (i - 1)) = growc R i (right_env ts (N - 1 - i)) b).
  { replace (N - 1 - (i - 1)) with (S (N - 1 - i)) by lia. cbn [SweepSpec.right_env]. rewrite ER by lia. replace (N - 1 - (N - 1 - i)) with i by lia. f_equal. unfold ts'; fs; auto. }
  split; [|split; congruence]. split.
  - replace (i - 1 =? rb) with false by (symmetry; apply Nat.eqb_neq; lia). constructor; auto.
    + intros j Hj. rewrite B4 by auto. destruct (Nat.eqb_spec j (i - 1)); auto. subst. unfold ts'. fs. auto.
    + intros j Hj Hn. unfold ts'. destruct (Nat.eq_dec j i) as [->|Hni]; [fs; auto|]. rewrite B6 by auto. fs. rewrite A4. destruct (Nat.eqb_spec i rb); apply P3; lia.
    + intros n Hn. destruct (Nat.eq_dec n (N - 1 - (i - 1))) as [->|Hni]; [rewrite EN; auto|]. rewrite ER by lia. apply (on_file_ext (op d)); [|apply P4; lia]. intros c. rewrite B9 by auto. apply A7. auto.
    + intros n Hn. rewrite EL by lia. apply (on_file_ext (op d)); [|apply P5; lia]. intros c. rewrite B9 by auto. apply A7. right. lia.
  - split; [intros _; rewrite EN; auto|]. intros Hi c Hc. rewrite B9 by (right; lia). rewrite A7 by auto. apply P7; auto.
Qed.

(** *** polls *)
Variables (c0 : nat) (pS pE : bool).
Notation visE := (visible (fun u => snd (arr u)) c0 pE).
Notation visS := (visible (fun u => fst (arr u) || snd (arr u)) c0 pS).
Notation poll := (poll T C En arr).
Definition flags_ok (d : dst) : Prop :=
  c0 <= clk d /\ (emg d = true <-> pE = true \/ exists u, c0 <= u < clk d /\ snd (arr u) = true) /\
  (stp d = true <-> pS = true \/ exists u, c0 <= u < clk d /\ fst (arr u) || snd (arr u) = true).
Lemma poll_ok : forall d, flags_ok d -> flags_ok (poll d) /\ clk (poll d) = S (clk d) /\ (emg (poll d) = true <-> visE (clk d)) /\ (stp (poll d) = true <-> visS (clk d)) /\
  W (poll d) = W d /\ lg (poll d) = lg d /\ rg (poll d) = rg d /\ op (poll d) = op d.
Proof.
  intros d [F1 [F2 F3]].
  assert (EE : emg (poll d) = true <-> pE = true \/ exists u, c0 <= u < S (clk d) /\ snd (arr u) = true).
  { unfold Dmrg.poll. destruct (arr (clk d)) as [u i] eqn:EA. cbn [Dmrg.emg]. rewrite orb_true_iff, F2. split.
    - intros [[H|[v [H1 H2]]]| ->]; auto; right; [exists v|exists (clk d)]; rewrite ?EA; split; auto; lia.
    - intros [H|[v [H1 H2]]]; auto. destruct (Nat.eq_dec v (clk d)) as [->|Hv]; [rewrite EA in H2; auto|]. left. right. exists v. split; auto. lia. }
  assert (SS : stp (poll d) = true <-> pS = true \/ exists u, c0 <= u < S (clk d) /\ fst (arr u) || snd (arr u) = true).
  { unfold Dmrg.poll. destruct (arr (clk d)) as [u i] eqn:EA. cbn [Dmrg.stp]. rewrite <- orb_assoc, orb_true_iff, F3. split.
    - intros [[H|[v [H1 H2]]]|H]; auto; right; [exists v|exists (clk d)]; rewrite ?EA; split; auto; lia.
    - intros [H|[v [H1 H2]]]; auto. destruct (Nat.eq_dec v (clk d)) as [->|Hv]; [rewrite EA in H2; auto|]. left. right. exists v. split; auto. lia. }
  assert (CK : clk (poll d) = S (clk d)) by (unfold Dmrg.poll; destruct (arr (clk d)); auto).
  split; [|split; [auto|]].
  - split; [lia|]. rewrite CK. auto.
  - split; [|split].
    + rewrite EE. unfold visible. split; (intros [H|[u [H1 H2]]]; [auto|right; exists u; split; auto; lia]).
    + rewrite SS. unfold visible. split; (intros [H|[u [H1 H2]]]; [auto|right; exists u; split; auto; lia]).
    + unfold Dmrg.poll. destruct (arr (clk d)). auto.
Qed.
Lemma same_flags_ok : forall d d', same_flags d d' -> flags_ok d -> flags_ok d'.
Proof. intros d d' [A1 [A2 A3]] F. unfold flags_ok in *. rewrite A1, A2, A3. auto. Qed.
Lemma vis_mono : forall a p t t', t <= t' -> visible a c0 p t -> visible a c0 p t'.
Proof. intros a p t t' H [V|[u [V1 V2]]]; [left; auto|right; exists u; split; auto; lia]. Qed.

(** *** a sweep *)
Notation Rs i k := (map (fun x => (true, x)) (seq i k)).
Notation Ls k := (map (fun x => (false, x - 1)) (rev (seq (lb + 2) k))).
Definition pos (bs : list (bool * nat)) (ts : nat -> T) (d : dst) : Prop :=
  (exists i k, lb <= i /\ i + k = rb - 1 /\ bs = Rs i k ++ Ls (rb - 1 - lb) /\ rpoint ts i d) \/
  (exists k, k <= rb - 1 - lb /\ bs = Ls k /\ lpoint ts (lb + 1 + k) d).
Lemma turn : forall ts d, rpoint ts (rb - 1) d -> lpoint ts rb d.
Proof.
  intros ts d [[P1 P2 P3 P4 P5] [P6 P7]]. replace (rb - 1 =? lb) with false in * by (symmetry; apply Nat.eqb_neq; lia). split; [|split].
  - rewrite Nat.eqb_refl. constructor; auto. intros n Hn. apply P4. lia.
  - intros H. lia.
  - intros _. apply P7. lia.
Qed.
Lemma turn0 : forall ts d, lpoint ts (lb + 1) d -> rpoint ts lb d.
Proof.
  intros ts d [[P1 P2 P3 P4 P5] [P6 P7]]. replace (lb + 1 =? rb) with false in * by (symmetry; apply Nat.eqb_neq; lia). split; [|split].
  - rewrite Nat.eqb_refl. constructor; auto; intros n Hn; [apply P4|apply P5]; lia.
  - intros H. lia.
  - intros H. lia.
Qed.
Lemma pos_poll : forall bs ts d, pos bs ts d -> pos bs ts (poll d).
Proof.
  intros bs ts d H. assert (HW : W (poll d) = W d /\ lg (poll d) = lg d /\ rg (poll d) = rg d /\ op (poll d) = op d) by (unfold Dmrg.poll; destruct (arr (clk d)); auto).
  destruct HW as [W1 [W2 [W3 W4]]].
  assert (PP : forall m a b, point ts m a b d -> point ts m a b (poll d)) by (intros m a b [P1 P2 P3 P4 P5]; constructor; rewrite ?W1, ?W4; auto).
  destruct H as [[i [k [A1 [A2 [A3 [A4 A5]]]]]]|[k [A1 [A2 [A3 A4]]]]].
  - left. exists i, k. split; [exact A1|]. split; [exact A2|]. split; [exact A3|]. split; [apply PP; exact A4|]. rewrite W2, W4. exact A5.
  - right. exists k. split; [exact A1|]. split; [exact A2|]. split; [apply PP; exact A3|]. rewrite W3, W4. exact A4.
Qed.
Definition held (b : bool * nat) : nat := if fst b then snd b + 1 else snd b.
Lemma step_pos : forall b bs ts e d, pos (b :: bs) ts d -> exists d', step lb rb b d = Ok d' /\ same_flags d d' /\ pos bs (fst (opt b (ts, e))) d' /\
  (exists lhi rhi, point (fst (opt b (ts, e))) (held b) lhi rhi d') /\ held b < N /\ eng (W d') = snd (opt b (ts, e)) /\ tmp (W d') = tmp (W d).
Proof.
  intros b bs ts e d [[i [k [A1 [A2 [A3 A4]]]]]|[k [A1 [A2 A3]]]].
  - assert (ST : forall k bs', b :: bs = (true, i) :: bs' -> i < rb - 1 -> bs' = Rs (S i) k ++ Ls (rb - 1 - lb) -> S i + k = rb - 1 ->
      exists d', step lb rb b d = Ok d' /\ same_flags d d' /\ pos bs (fst (opt b (ts, e))) d' /\ (exists lhi rhi, point (fst (opt b (ts, e))) (held b) lhi rhi d') /\ held b < N /\ eng (W d') = snd (opt b (ts, e)) /\ tmp (W d') = tmp (W d)).
    { intros k' bs' HB HI HB' HK. inversion HB; subst b bs'. destruct (step_right_ok ts i d e A1 HI A4) as [d' [B1 [B2 [B3 [B4 B5]]]]]. exists d'.
      split; [auto|]. split; [auto|]. split; [left; exists (S i), k'; subst bs; split; [lia|]; split; [lia|]; split; auto|].
      split; [|split; [cbn; lia|auto]]. destruct B3 as [B3 _]. replace (S i =? lb) with false in B3 by (symmetry; apply Nat.eqb_neq; lia). unfold held. cbn [fst snd]. replace (i + 1) with (S i) by lia. eauto. }
    destruct k as [|k]; [|eapply (ST k); [exact A3|lia|auto|lia]].
    cbn [seq map app] in A3. replace i with (rb - 1) in A4 by lia. apply turn in A4. destruct (rb - 1 - lb) as [|k] eqn:EK; [lia|].
    rewrite seq_S, rev_unit in A3. cbn [map] in A3. inversion A3; subst b bs. replace (lb + 2 + k) with rb in * by lia.
    destruct (step_left_ok ts rb d e ltac:(lia) ltac:(lia) A4) as [d' [B1 [B2 [B3 [B4 B5]]]]]. exists d'. split; [auto|]. split; [auto|]. split; [right; exists k; split; [lia|]; split; auto; replace (lb + 1 + k) with (rb - 1) by lia; auto|].
    split; [|split; [cbn; lia|auto]]. destruct B3 as [B3 _]. replace (rb - 1 =? rb) with false in B3 by (symmetry; apply Nat.eqb_neq; lia). unfold held. cbn [fst snd]. eauto.
  - destruct k as [|k]; [discriminate|]. rewrite seq_S, rev_unit in A2. cbn [map] in A2. inversion A2; subst b bs. replace (lb + 2 + k) with (lb + 1 + S k) in * by lia.
    destruct (step_left_ok ts (lb + 1 + S k) d e ltac:(lia) ltac:(lia) A3) as [d' [B1 [B2 [B3 [B4 B5]]]]]. exists d'. split; [auto|]. split; [auto|]. replace (lb + 1 + S k - 1) with (lb + 1 + k) in * by lia.
    split; [right; exists k; split; [lia|]; split; auto|].
    split; [|split; [cbn; lia|auto]]. destruct B3 as [B3 _]. replace (lb + 1 + k =? rb) with false in B3 by (symmetry; apply Nat.eqb_neq; lia). unfold held. cbn [fst snd]. eauto.
Qed.
(** all tensors on disk, none in memory; block operators: complete files are files of the tensors on disk *)
Definition files_consistent (ts : nat -> T) (d : dst) : Prop :=
  (forall n, N - 1 - rb <= n <= N - 2 - lb -> on_file (op d) R n (right_env ts n)) \/ (forall c, c < cols (lb + 1) -> op d R (N - 2 - lb) c = None).
Definition safe (ts : nat -> T) (d : dst) : Prop :=
  nm (W d) = N /\ on_disk T unit En N ts (W d) /\ mem_empty T unit En N (W d) /\ files_consistent ts d.
Lemma pos_files : forall bs ts d, pos bs ts d -> files_consistent ts d.
Proof.
  intros bs ts d [[i [k [A1 [A2 [A3 [A4 [A5 A6]]]]]]]|[k [A1 [A2 [A3 [A4 A5]]]]]].
  - destruct (Nat.eq_dec i lb) as [->|Hi]; [left; apply (pt_r _ _ _ _ _ A4)|right; apply A6; lia].
  - destruct k as [|k]; [left; replace (N - 2 - lb) with (N - 1 - (lb + 1 + 0)) by lia; apply (pt_r _ _ _ _ _ A3)|right; apply A5; lia].
Qed.
Lemma emergency_ok : forall b ts lhi rhi d, held b < N -> point ts (held b) lhi rhi d -> files_consistent ts d ->
  exists d', emergency b d = Ok d' /\ same_flags d d' /\ safe ts d' /\ eng (W d') = eng (W d) /\ tmp (W d') = tmp (W d).
Proof.
  intros [rt l] ts lhi rhi d HH [P1 P2 P3 P4 P5] HF. assert (MH : mm (W d) (held (rt, l)) = Some (ts (held (rt, l)))) by (rewrite P2, Nat.eqb_refl; auto).
  assert (EX : exec [DumpM (held (rt, l)) true] (W d) = Ok (set_dm T unit En (fset (dm (W d)) (held (rt, l)) (Some (ts (held (rt, l))))) (set_mm T unit En (fset (mm (W d)) (held (rt, l)) None) (W d)))).
  { rewrite (ex_DumpM _ _ _ _ _ _ _ _ _ _ _ _ _ _ _ (ts (held (rt, l)))); [reflexivity|lia|auto]. }
  exists (setW T C En (set_dm T unit En (fset (dm (W d)) (held (rt, l)) (Some (ts (held (rt, l))))) (set_mm T unit En (fset (mm (W d)) (held (rt, l)) None) (W d))) d).
  split; [unfold Dmrg.emergency; destruct rt; apply run_exec; exact EX|]. split; [repeat split|]. split; [|dd; auto].
  split; [dd; auto|]. split; [|split].
  - intros j Hj. dd. unfold fset. destruct (Nat.eqb_spec j (held (rt, l))); subst; auto.
  - intros j Hj. dd. unfold fset. specialize (P2 j Hj). destruct (Nat.eqb_spec j (held (rt, l))); subst; auto.
  - exact HF.
Qed.

Lemma sweep_from_ok : forall bs ts e d, pos bs ts d -> flags_ok d -> eng (W d) = e -> 
  ((forall t, clk d <= t < clk d + length bs -> ~ visE t) /\ exists d', sweep_from lb rb bs d = Ok d' /\ rpoint (fst (opts bs (ts, e))) lb d' /\ eng (W d') = snd (opts bs (ts, e)) /\
     tmp (W d') = tmp (W d) /\ flags_ok d' /\ clk d' = clk d + length bs) \/
  (exists j d', 1 <= j <= length bs /\ visE (clk d + j - 1) /\ (forall t, clk d <= t < clk d + j - 1 -> ~ visE t) /\ sweep_from lb rb bs d = Ok d' /\
     safe (fst (opts (firstn j bs) (ts, e))) d' /\ eng (W d') = snd (opts (firstn j bs) (ts, e)) /\ tmp (W d') = tmp (W d) /\ flags_ok d' /\ clk d' = clk d + j).
Proof.
  induction bs as [|b bs IH]; intros ts e d HP HF HE.
  - left. split; [cbn; lia|]. exists d. cbn. split; [auto|]. split; [|split; [auto|]; split; [auto|]; split; [auto|lia]].
    destruct HP as [[i [k [A1 [A2 [A3 A4]]]]]|[k [A1 [A2 A3]]]].
    + symmetry in A3. apply app_eq_nil in A3 as [_ A3]. destruct (rb - 1 - lb) eqn:EK; [lia|]. rewrite seq_S, rev_unit in A3. discriminate.
    + destruct k; [|rewrite seq_S, rev_unit in A2; discriminate]. apply turn0. rewrite Nat.add_0_r in A3. exact A3.
  - destruct (step_pos b bs ts e d HP) as [d1 [A1 [A2 [A3 [A4 [A5 [A6 A7]]]]]]]. cbn [Dmrg.sweep_from]. rewrite A1. cbn [bind].
    pose proof (same_flags_ok _ _ A2 HF) as F1. destruct (poll_ok d1 F1) as [Q1 [Q2 [Q3 [Q4 [Q5 [Q6 [Q7 Q8]]]]]]].
    assert (CK : clk d1 = clk d) by apply A2. rewrite CK in *.
    destruct (emg (poll d1)) eqn:EG.
    + right. destruct A4 as [lhi [rhi A4]].
      assert (PT : point (fst (opt b (ts, e))) (held b) lhi rhi (poll d1)) by (destruct A4 as [P1 P2 P3 P4 P5]; constructor; rewrite ?Q5, ?Q8; auto).
      assert (FC : files_consistent (fst (opt b (ts, e))) (poll d1)) by (apply (pos_files bs); apply pos_poll; auto).
      destruct (emergency_ok b _ lhi rhi (poll d1) A5 PT FC) as [d2 [B1 [B2 [B3 [B4 B5]]]]]. exists 1, d2. cbn [firstn length]. split; [lia|].
      replace (clk d + 1 - 1) with (clk d) by lia. split; [apply Q3; auto|]. split; [lia|]. split; [exact B1|].
      unfold SweepSpec.opts. cbn [fold_left]. split; [auto|]. split; [rewrite B4, Q5; auto|]. split; [rewrite B5, Q5; auto|]. split; [eapply same_flags_ok; eauto|].
      destruct B2 as [_ [_ B2]]. rewrite B2, Q2. lia.
    + assert (NV : ~ visE (clk d)) by (intros V; apply Q3 in V; congruence).
      assert (EQ : forall bs, opts bs (fst (opt b (ts, e)), snd (opt b (ts, e))) = opts (b :: bs) (ts, e)) by (intros; rewrite <- surjective_pairing; auto).
      specialize (IH (fst (opt b (ts, e))) (snd (opt b (ts, e))) (poll d1) (pos_poll _ _ _ A3) Q1). rewrite Q5 in IH. specialize (IH A6). rewrite Q2 in IH.
      destruct IH as [[I1 [d2 [I2 [I3 [I4 [I5 [I6 I7]]]]]]]|[j [d2 [I0 [I1 [I2 [I3 [I4 [I5 [I6 [I7 I8]]]]]]]]]]].
      * left. split.
        { intros t Ht. destruct (Nat.eq_dec t (clk d)) as [->|Hn]; auto. apply I1. cbn in Ht. lia. }
        exists d2. rewrite EQ in *. split; auto. split; auto. split; auto. split; [congruence|]. split; [auto|cbn; lia].
      * right. exists (S j), d2. cbn [firstn length]. rewrite EQ in *. split; [lia|]. replace (clk d + S j - 1) with (S (clk d) + j - 1) by lia. split; auto. split.
        { intros t Ht. destruct (Nat.eq_dec t (clk d)) as [->|Hn]; auto. apply I2. lia. }
        split; auto. split; auto. split; auto. split; [congruence|]. split; [auto|lia].
Qed.
Lemma order_bonds : order lb rb = bonds lb rb.
Proof. unfold order, bonds. replace (rb - (lb + 1)) with (rb - 1 - lb) by lia. auto. Qed.
Definition blen : nat := 2 * (rb - 1 - lb).
Lemma bonds_len : length (bonds lb rb) = blen.
Proof. unfold bonds, blen. rewrite app_length, !map_length, rev_length, !seq_length. lia. Qed.
(** load number of the first poll of sweep k (0-based) when all sweeps before went on *)
Definition tm (k : nat) : nat := c0 + k * (blen + 2).
Lemma sweeps_snoc : forall m s, sweeps_spec lb rb (S m) s = opts (bonds lb rb) (sweeps_spec lb rb m s).
Proof. induction m; intros s; auto. change (sweeps_spec lb rb (S (S m)) s) with (sweeps_spec lb rb (S m) (opts (bonds lb rb) s)). rewrite IHm. auto. Qed.

Lemma rpoint_poll : forall ts d, rpoint ts lb d -> rpoint ts lb (poll d).
Proof.
  intros ts d [[P1 P2 P3 P4 P5] [P6 P7]]. assert (HW : W (poll d) = W d /\ op (poll d) = op d) by (unfold Dmrg.poll; destruct (arr (clk d)); auto).
  destruct HW as [W1 W4]. split; [|split; intros; lia]. constructor; rewrite ?W1, ?W4; auto.
Qed.
Lemma safe_poll : forall ts d, safe ts d -> safe ts (poll d).
Proof.
  intros ts d [A1 [A2 [A3 A4]]]. assert (HW : W (poll d) = W d /\ op (poll d) = op d) by (unfold Dmrg.poll; destruct (arr (clk d)); auto).
  destruct HW as [W1 W4]. unfold safe, files_consistent in *. rewrite W1, W4. auto.
Qed.
(** sweep q went on to the next one *)
Definition goes_on (q : nat) : Prop := ~ visS (tm q + blen) /\ ~ visE (tm q + blen + 1).
Lemma tm_S : forall k, tm (S k) = tm k + blen + 2.
Proof. intros. unfold tm. lia. Qed.
Lemma sweeps_ok : forall n k ts e d, rpoint ts lb d -> flags_ok d -> eng (W d) = e -> clk d = tm k ->
  (exists m d', m <= n /\ (n <> 0 -> 1 <= m) /\ sweeps lb rb n d = Ok d' /\ rpoint (fst (sweeps_spec lb rb m (ts, e))) lb d' /\ eng (W d') = snd (sweeps_spec lb rb m (ts, e)) /\
     tmp (W d') = tmp (W d) /\ flags_ok d' /\
     (forall q t, k <= q < k + m -> tm q <= t < tm q + blen -> ~ visE t) /\ (forall q, k <= q -> q + 1 < k + m -> goes_on q) /\
     (m = n /\ clk d' = tm (k + m) /\ (forall q, k <= q < k + m -> goes_on q) \/
      1 <= m /\ visS (tm (k + m - 1) + blen) /\ clk d' = tm (k + m - 1) + blen + 1 \/
      1 <= m /\ ~ visS (tm (k + m - 1) + blen) /\ visE (tm (k + m - 1) + blen + 1) /\ clk d' = tm (k + m))) \/
  (exists m j d', m < n /\ 1 <= j <= blen /\ visE (tm (k + m) + j - 1) /\ (forall t, tm (k + m) <= t < tm (k + m) + j - 1 -> ~ visE t) /\ (forall q, k <= q < k + m -> goes_on q) /\
     sweeps lb rb n d = Ok d' /\ safe (fst (opts (firstn j (bonds lb rb)) (sweeps_spec lb rb m (ts, e)))) d' /\
     eng (W d') = snd (opts (firstn j (bonds lb rb)) (sweeps_spec lb rb m (ts, e))) /\ tmp (W d') = tmp (W d) /\ flags_ok d' /\ tm (k + m) + j <= clk d').
Proof.
  induction n as [|n IH]; intros k ts e d HP HF HE HC.
  - left. exists 0, d. cbn [Dmrg.sweeps SweepSpec.sweeps_spec fst snd]. split; [lia|]. split; [lia|]. split; [auto|]. split; [auto|]. split; [auto|]. split; [auto|]. split; [auto|].
    split; [intros; lia|]. split; [intros; lia|]. left. rewrite Nat.add_0_r. split; [auto|]. split; [auto|]. intros; lia.
  - cbn [Dmrg.sweeps]. rewrite order_bonds.
    assert (PO : pos (bonds lb rb) ts d). { left. exists lb, (rb - 1 - lb). split; [lia|]. split; [lia|]. split; [reflexivity|auto]. }
    destruct (sweep_from_ok (bonds lb rb) ts e d PO HF HE) as [[A1 [d1 [A2 [A3 [A4 [A5 [A6 A7]]]]]]]|[j [d1 [B1 [B2 [B3 [B4 [B5 [B6 [B7 [B8 B9]]]]]]]]]]].
    + rewrite A2. cbn [bind]. rewrite bonds_len, HC in *.
      destruct (poll_ok d1 A6) as [Q1 [Q2 [Q3 [Q4 [Q5 _]]]]]. rewrite A7 in *.
      pose proof (rpoint_poll _ _ A3) as R1.
      destruct (stp (poll d1)) eqn:ES.
      * left. exists 1, (poll d1). rewrite Q5. split; [lia|]. split; [lia|]. split; [auto|]. change (sweeps_spec lb rb 1 (ts, e)) with (opts (bonds lb rb) (ts, e)). split; [auto|]. split; [auto|]. split; [congruence|]. split; [auto|].
        replace (k + 1 - 1) with k by lia. split; [intros q t Hq Ht; apply A1; replace q with k in Ht by lia; lia|]. split; [intros; lia|]. right. left. split; [lia|]. split; [apply Q4; auto|lia].
      * assert (NS : ~ visS (tm k + blen)) by (intros V; apply Q4 in V; congruence).
        destruct (poll_ok (poll d1) Q1) as [U1 [U2 [U3 [U4 [U5 _]]]]]. rewrite Q2 in *. pose proof (rpoint_poll _ _ R1) as R2.
        destruct (emg (poll (poll d1))) eqn:EE.
        -- left. exists 1, (poll (poll d1)). rewrite U5, Q5. split; [lia|]. split; [lia|]. split; [auto|]. change (sweeps_spec lb rb 1 (ts, e)) with (opts (bonds lb rb) (ts, e)). split; [auto|]. split; [auto|]. split; [congruence|]. split; [auto|].
           replace (k + 1 - 1) with k by lia. split; [intros q t Hq Ht; apply A1; replace q with k in Ht by lia; lia|]. split; [intros; lia|]. right. right. split; [lia|]. split; [auto|]. split; [replace (tm k + blen + 1) with (S (tm k + blen)) by lia; apply U3; auto|].
           rewrite U2. replace (k + 1) with (S k) by lia. rewrite tm_S. lia.
        -- assert (NE : ~ visE (tm k + blen + 1)). { intros V. replace (tm k + blen + 1) with (S (tm k + blen)) in V by lia. apply U3 in V. congruence. }
           assert (GO : goes_on k) by (split; auto).
           assert (CK : clk (poll (poll d1)) = tm (S k)) by (rewrite U2, tm_S; lia).
           assert (EN : eng (W (poll (poll d1))) = snd (opts (bonds lb rb) (ts, e))) by (rewrite U5, Q5; auto).
           assert (TM : tmp (W (poll (poll d1))) = tmp (W d)) by (rewrite U5, Q5; auto).
           assert (EQ : forall m, sweeps_spec lb rb m (fst (opts (bonds lb rb) (ts, e)), snd (opts (bonds lb rb) (ts, e))) = sweeps_spec lb rb (S m) (ts, e)) by (intros; rewrite <- surjective_pairing; auto).
           destruct (IH (S k) _ _ _ R2 U1 EN CK) as [[m [d' [I0 [I1 [I2 [I3 [I4 [I5 [I6 [I7 [I8 I9]]]]]]]]]]]|[m [j [d' [I0 [I1 [I2 [I3 [I4 [I5 [I6 [I7 [I8 [I9 I10]]]]]]]]]]]]]].
           ++ left. exists (S m), d'. rewrite EQ in *. split; [lia|]. split; [lia|]. split; [auto|]. split; [auto|]. split; [auto|]. split; [congruence|]. split; [auto|].
              split. { intros q t Hq Ht. destruct (Nat.eq_dec q k) as [->|Hn]; [apply A1; auto|apply (I7 q t); lia]. }
              split. { intros q Hq Hm. destruct (Nat.eq_dec q k) as [->|Hn]; [auto|apply I8; lia]. }
              replace (S k + m) with (k + S m) in * by lia.
              destruct I9 as [[J1 [J2 J3]]|[[J1 J2]|[J1 J2]]]; [left|right; left; split; [lia|auto]|right; right; split; [lia|auto]].
              split; [lia|]. split; [auto|]. intros q Hq. destruct (Nat.eq_dec q k) as [->|Hn]; [auto|apply J3; lia].
           ++ right. exists (S m), j, d'. rewrite EQ in *. replace (S k + m) with (k + S m) in * by lia. split; [lia|]. split; [auto|]. split; [auto|]. split; [auto|].
              split. { intros q Hq. destruct (Nat.eq_dec q k) as [->|Hn]; [auto|apply I4; lia]. }
              split; [auto|]. split; [auto|]. split; [auto|]. split; [congruence|]. split; auto.
    + right. rewrite B4. cbn [bind]. rewrite bonds_len, HC in *.
      destruct (poll_ok d1 B8) as [Q1 [Q2 [Q3 [Q4 [Q5 _]]]]]. rewrite B9 in *. pose proof (safe_poll _ _ B5) as R1.
      destruct (stp (poll d1)) eqn:ES.
      * exists 0, j, (poll d1). rewrite Q5. rewrite Nat.add_0_r. split; [lia|]. split; [lia|]. split; [auto|]. split; [auto|]. split; [intros; lia|]. split; [auto|]. split; [auto|]. split; [auto|]. split; [auto|]. split; [auto|lia].
      * destruct (poll_ok (poll d1) Q1) as [U1 [U2 [U3 [U4 [U5 _]]]]]. rewrite Q2 in *. pose proof (safe_poll _ _ R1) as R2.
        assert (EE : emg (poll (poll d1)) = true) by (apply U3; eapply vis_mono; [|exact B2]; lia). rewrite EE.
        exists 0, j, (poll (poll d1)). rewrite U5, Q5. rewrite Nat.add_0_r. split; [lia|]. split; [lia|]. split; [auto|]. split; [auto|]. split; [intros; lia|]. split; [auto|]. split; [auto|]. split; [auto|]. split; [auto|]. split; [auto|lia].
Qed.

(** *** moving the center to site 0 *)
Lemma center_to_0_out : forall c ts j, c < j -> center_to_0 T canoR c ts j = ts j.
Proof. induction c as [|c IH]; intros ts j Hj; cbn [center_to_0]; auto. rewrite IH by lia. unfold set2. fs. auto. Qed.
Lemma post_loop_ok : forall c ts w q, c < N -> nm w = N -> mm w c = Some (ts c) -> (forall j, j < c -> mm w j = None) -> (forall j, j < c -> dm w j = Some (ts j)) ->
  exists w', exec (flat_map (fun i => [LoadM (i - 1); CanoR i; DumpM i false]) (rev (seq 1 c)) ++ q) w = exec q w' /\ nm w' = N /\ eng w' = eng w /\ tmp w' = tmp w /\
    (forall j, j <= c -> mm w' j = Some (center_to_0 T canoR c ts j)) /\ (forall j, 0 < j <= c -> dm w' j = Some (center_to_0 T canoR c ts j)) /\
    (forall j, c < j -> mm w' j = mm w j /\ dm w' j = dm w j).
Proof.
  induction c as [|c IH]; intros ts w q HN H1 H2 H3 H4.
  - cbn. exists w. split; [auto|]. split; [auto|]. split; [auto|]. split; [auto|]. split; [intros j Hj; replace j with 0 by lia; auto|]. split; [intros; lia|auto].
  - rewrite seq_S, rev_unit. cbn [flat_map app plus]. replace (S c - 1) with c by lia.
    rewrite (ex_LoadM _ _ _ _ _ _ _ _ _ _ _ _ _ _ (ts c)); [|lia|apply H4; lia].
    rewrite (ex_CanoR _ _ _ _ _ _ _ _ _ _ _ _ _ _ (ts c) (ts (S c))); [|cbn; lia|cbn; replace (c - 0) with c by lia; fs; auto|cbn; fs; auto].
    set (p := canoR (ts c) (ts (S c))). replace (S c - 1) with c by lia.
    rewrite (ex_DumpM _ _ _ _ _ _ _ _ _ _ _ _ _ _ _ (snd p)); [|cbn; lia|cbn; fs; auto].
    match goal with |- context [exec _ ?v] => set (w1 := v) end.
    destruct (IH (set2 T ts c p) w1 q) as [w2 [A1 [A2 [A3 [A4 [A5 [A6 A7]]]]]]].
    + lia.
    + auto.
    + unfold w1. cbn. unfold set2. fs. auto.
    + intros j Hj. unfold w1. cbn. fs. apply H3. lia.
    + intros j Hj. unfold w1. cbn. unfold set2. fs. apply H4. lia.
    + exists w2. rewrite A1. split; [auto|]. split; [auto|]. split; [rewrite A3; auto|]. split; [rewrite A4; auto|]. cbn [center_to_0]. fold p.
      assert (OUT : center_to_0 T canoR c (set2 T ts c p) (S c) = snd p) by (rewrite center_to_0_out by lia; replace (S c) with (c + 1) by lia; unfold set2; fs; auto).
      split; [|split].
      * intros j Hj. destruct (Nat.eq_dec j (S c)) as [->|Hn]; [|apply A5; lia]. rewrite OUT. destruct (A7 (S c) ltac:(lia)) as [B1 B2]. rewrite B1. unfold w1. cbn. fs. auto.
      * intros j Hj. destruct (Nat.eq_dec j (S c)) as [->|Hn]; [|apply A6; lia]. rewrite OUT. destruct (A7 (S c) ltac:(lia)) as [B1 B2]. rewrite B2. unfold w1. cbn. fs. auto.
      * intros j Hj. destruct (A7 j ltac:(lia)) as [B1 B2]. rewrite B1, B2. unfold w1. cbn. fs. auto.
Qed.
Lemma post_ok : forall ts w, nm w = N -> (forall j, j < N -> mm w j = None) -> (forall j, j < N -> dm w j = Some (ts j)) ->
  exists w', exec (post lb) w = Ok w' /\ nm w' = N /\ eng w' = eng w /\ tmp w' = tmp w /\
    (forall j, j < N -> dm w' j = Some (center_to_0 T canoR (lb + 1) ts j)) /\
    (forall j, j < N -> mm w' j = if j <=? lb + 1 then Some (center_to_0 T canoR (lb + 1) ts j) else None).
Proof.
  intros ts w H1 H2 H3. unfold post. rewrite (ex_LoadM _ _ _ _ _ _ _ _ _ _ _ _ _ _ (ts (lb + 1))); [|lia|apply H3; lia].
  match goal with |- context [exec _ ?v] => set (w1 := v) end.
  destruct (post_loop_ok (lb + 1) ts w1 [DumpM 0 false]) as [w2 [A1 [A2 [A3 [A4 [A5 [A6 A7]]]]]]]; auto; try lia.
  - unfold w1. cbn. fs. auto.
  - intros j Hj. unfold w1. cbn. fs. apply H2. lia.
  - intros j Hj. unfold w1. cbn. apply H3. lia.
  - rewrite A1. rewrite (ex_DumpM _ _ _ _ _ _ _ _ _ _ _ _ _ _ _ (center_to_0 T canoR (lb + 1) ts 0)); [|lia|apply A5; lia].
    eexists. split; [reflexivity|]. cbn. split; [auto|]. split; [rewrite A3; auto|]. split; [rewrite A4; auto|]. split.
    + intros j Hj. unfold fset. destruct (Nat.eqb_spec j 0) as [->|Hn]; auto. destruct (Nat.le_gt_cases j (lb + 1)) as [Hl|Hl]; [apply A6; lia|].
      destruct (A7 j Hl) as [_ B]. rewrite B, center_to_0_out by lia. unfold w1. cbn. apply H3. auto.
    + intros j Hj. unfold fset. destruct (Nat.eqb_spec j 0) as [->|Hn]; [reflexivity|]. destruct (Nat.leb_spec j (lb + 1)) as [Hl|Hl]; [apply A5; lia|].
      destruct (A7 j Hl) as [B _]. rewrite B. unfold w1. cbn. fs. apply H2. auto.
Qed.

(** *** block operators before the sweeps *)
Lemma write_file : forall s n l d d', write_group s n (map Some l) d = Ok d' -> W d' = W d /\ same_flags d d' /\ on_file (op d') s n l /\ (forall s' m c, s' <> s \/ m <> n -> op d' s' m c = op d s' m c).
Proof.
  intros s n l d d' H. rewrite write_ok in H. inversion H; subst. split; [auto|]. split; [repeat split|]. split.
  - intros c Hc. dd. replace (sideb s s) with true by (destruct s; auto). rewrite Nat.eqb_refl, ltb_t by auto. auto.
  - intros s' m c Hs. dd. destruct (sideb s s') eqn:E1; cbn [andb]; auto. destruct (Nat.eqb_spec m n); cbn [andb]; auto. exfalso. destruct Hs as [Hs|Hs]; auto. destruct s, s'; try discriminate; auto.
Qed.
Lemma write_run : forall s n l d, exists d', write_group s n (map Some l) d = Ok d' /\ W d' = W d /\ same_flags d d' /\ on_file (op d') s n l /\ (forall s' m c, s' <> s \/ m <> n -> op d' s' m c = op d s' m c).
Proof. intros. eexists. split; [apply write_ok|]. apply (write_file s n l d). apply write_ok. Qed.
Definition at_most (i : nat) (d : dst) : Prop := forall j, j < N -> j <> i -> mm (W d) j = None.
(** only site i loaded, with the tensor of ts *)
Lemma load_one : forall ts i d, i < N -> nm (W d) = N -> on_disk T unit En N ts (W d) -> at_most i d ->
  exists d', run [LoadM i] d = Ok d' /\ nm (W d') = N /\ on_disk T unit En N ts (W d') /\ mm (W d') i = Some (ts i) /\ at_most i d' /\ same_flags d d' /\ op d' = op d /\ eng (W d') = eng (W d) /\ tmp (W d') = tmp (W d).
Proof.
  intros ts i d Hi H1 H2 H3. rewrite (run_exec _ _ (set_mm T unit En (fset (mm (W d)) i (Some (ts i))) (W d))) by (rewrite (ex_LoadM _ _ _ _ _ _ _ _ _ _ _ _ _ _ (ts i)); [reflexivity|lia|apply H2; lia]).
  eexists. split; [reflexivity|]. dd. split; [auto|]. split; [exact H2|]. split; [fs; auto|]. split; [|repeat split]. intros j Hj Hn. dd. fs. apply H3; auto.
Qed.
Lemma free_one : forall ts i d, i < N -> nm (W d) = N -> on_disk T unit En N ts (W d) -> at_most i d ->
  exists d', run [FreeM i] d = Ok d' /\ nm (W d') = N /\ on_disk T unit En N ts (W d') /\ mem_empty T unit En N (W d') /\ same_flags d d' /\ op d' = op d /\ eng (W d') = eng (W d) /\ tmp (W d') = tmp (W d).
Proof.
  intros ts i d Hi H1 H2 H3. rewrite (run_exec _ _ (set_mm T unit En (fset (mm (W d)) i None) (W d))) by (rewrite ex_FreeM; [reflexivity|lia]).
  eexists. split; [reflexivity|]. dd. split; [auto|]. split; [exact H2|]. split; [|repeat split]. intros j Hj. dd. unfold fset. destruct (Nat.eqb_spec j i); auto.
Qed.
Lemma getM_one : forall ts i d, i < N -> nm (W d) = N -> mm (W d) i = Some (ts i) -> getM T unit En i (W d) = Ok (ts i).
Proof. intros. unfold getM. rewrite H0, ltb_t, H1 by auto. auto. Qed.
Lemma right_env_S : forall ts i, 1 <= i -> i <= N -> right_env ts i = growc R (N - i) (right_env ts (i - 1)) (ts (N - i)).
Proof. intros ts i H1 H2. replace i with (S (i - 1)) at 1 by lia. cbn [SweepSpec.right_env]. replace (N - 1 - (i - 1)) with (N - i) by lia. auto. Qed.

Definition init_body (N : nat) : nat -> group C * dst -> res (group C * dst) := fun i gd =>
    let (g, d) := gd in
    let! d := (if 1 <? i then run [LoadM (N - i)] d else Ok d) in
    let! t := getM T unit En (N - i) (W d) in
    let! g := grow_group R (N - i) g t in
    let! d := write_group R i g d in
    let! d := run [FreeM (N - i)] d in
    Ok (g, d).
Definition inv0 (ts : nat -> T) (i : nat) (d d' : dst) : Prop :=
  nm (W d') = N /\ on_disk T unit En N ts (W d') /\ (if i =? 1 then mm (W d') (N - 1) = Some (ts (N - 1)) /\ at_most (N - 1) d' else mem_empty T unit En N (W d')) /\
  same_flags d d' /\ eng (W d') = eng (W d) /\ tmp (W d') = tmp (W d).
Lemma inv0_load : forall ts i d d', 1 <= i <= N -> inv0 ts i d d' -> exists d1, (if 1 <? i then run [LoadM (N - i)] d' else Ok d') = Ok d1 /\
  nm (W d1) = N /\ on_disk T unit En N ts (W d1) /\ mm (W d1) (N - i) = Some (ts (N - i)) /\ at_most (N - i) d1 /\ same_flags d d1 /\ op d1 = op d' /\ eng (W d1) = eng (W d) /\ tmp (W d1) = tmp (W d).
Proof.
  intros ts i d d' Hi [A1 [A2 [A3 [A4 [A5 A6]]]]]. destruct (Nat.eqb_spec i 1) as [->|Hn].
  - exists d'. cbn. destruct A3 as [A3 A3']. repeat (split; [solve [auto]|]). auto.
  - rewrite ltb_t by lia. destruct (load_one ts (N - i) d') as [d1 [B1 [B2 [B3 [B4 [B5 [B6 [B7 [B8 B9]]]]]]]]]; auto; [lia|intros j Hj _; apply A3; auto|].
    exists d1. split; [auto|]. split; [auto|]. split; [auto|]. split; [auto|]. split; [auto|]. split; [eapply same_flags_trans; eauto|]. split; [auto|]. split; congruence.
Qed.
Lemma init_loop_ok : forall n i ts d d', 1 <= i -> i + n <= N -> inv0 ts i d d' -> (forall m, m < i -> on_file (op d') R m (right_env ts m)) ->
  exists d2, for_loop i n (init_body N) (map Some (right_env ts (i - 1)), d') = Ok (map Some (right_env ts (i + n - 1)), d2) /\ inv0 ts (i + n) d d2 /\
    (forall m, m < i + n -> on_file (op d2) R m (right_env ts m)).
Proof.
  induction n as [|n IH]; intros i ts d d' Hi Hn HI HF.
  - rewrite Nat.add_0_r. exists d'. auto.
  - cbn [for_loop]. unfold init_body at 1. destruct (inv0_load ts i d d' ltac:(lia) HI) as [d1 [A1 [A2 [A3 [A4 [A5 [A6 [A7 [A8 A9]]]]]]]]]. rewrite A1. cbn [bind].
    rewrite (getM_one ts) by (auto; lia). cbn [bind]. rewrite grow_ok by (rewrite right_len by lia; f_equal; lia). cbn [bind]. rewrite <- right_env_S by lia.
    destruct (write_run R i (right_env ts i) d1) as [d2 [B1 [B2 [B3 [B4 B5]]]]]. rewrite B1. cbn [bind].
    destruct (free_one ts (N - i) d2) as [d3 [C1 [C2 [C3 [C4 [C5 [C6 [C7 C8]]]]]]]]; try (rewrite B2); auto; [lia|intros j Hj Hne; rewrite B2; apply A5; auto|]. rewrite C1. cbn [bind].
    destruct (IH (S i) ts d d3) as [d4 [E1 [E2 E3]]]; try lia.
    + split; [auto|]. split; [auto|]. split; [replace (S i =? 1) with false by (symmetry; apply Nat.eqb_neq; lia); auto|]. split; [|rewrite C7, C8, B2; auto].
      eapply same_flags_trans; [exact A6|]. eapply same_flags_trans; eauto.
    + intros m Hm. rewrite C6. destruct (Nat.eq_dec m i) as [->|Hne]; auto. apply (on_file_ext (op d')); [|apply HF; lia]. intros c. rewrite B5 by auto. rewrite A7. auto.
    + replace (S i - 1) with i in E1 by lia. replace (i + S n) with (S i + n) by lia. exists d4. auto.
Qed.
Lemma init_ops_ok : forall ts d, nm (W d) = N -> on_disk T unit En N ts (W d) -> mem_empty T unit En N (W d) -> exists d', init_ops lb d = Ok d' /\
  nm (W d') = N /\ on_disk T unit En N ts (W d') /\ mem_empty T unit En N (W d') /\ same_flags d d' /\ eng (W d') = eng (W d) /\ tmp (W d') = tmp (W d) /\
  (forall n, n <= N - 2 - lb -> on_file (op d') R n (right_env ts n)).
Proof.
  intros ts d H1 H2 H3. unfold Dmrg.init_ops. rewrite H1.
  destruct (load_one ts (N - 1) d) as [d1 [A1 [A2 [A3 [A4 [A5 [A6 [A7 [A8 A9]]]]]]]]]; auto; [lia|intros j Hj _; auto|]. rewrite A1. cbn [bind].
  rewrite (getM_one ts) by (auto; lia). cbn [bind]. change [Some (trivc R)] with (map Some (right_env ts 0)).
  destruct (write_run R 0 (right_env ts 0) d1) as [d2 [B1 [B2 [B3 [B4 B5]]]]]. rewrite B1. cbn [bind].
  destruct (init_loop_ok (N - (lb + 2)) 1 ts d d2) as [d3 [C1 [C2 C3]]]; try lia.
  - split; [rewrite B2; auto|]. split; [rewrite B2; auto|]. split; [cbn; rewrite B2; split; auto; intros j Hj Hn; rewrite B2; auto|]. split; [eapply same_flags_trans; eauto|]. rewrite B2. auto.
  - intros m Hm. replace m with 0 by lia. auto.
  - unfold init_body in C1. replace (1 - 1) with 0 in C1 by lia. rewrite C1. cbn [bind]. exists d3. destruct C2 as [E1 [E2 [E3 [E4 [E5 E6]]]]].
    replace (1 + (N - (lb + 2)) =? 1) with false in E3 by (symmetry; apply Nat.eqb_neq; lia).
    split; [auto|]. split; [auto|]. split; [auto|]. split; [auto|]. split; [auto|]. split; [auto|]. split; [auto|]. intros n Hn. apply C3. lia.
Qed.

Definition bound_body (N : nat) : nat -> group C * dst -> res (group C * dst) := fun i gd =>
    let (g, d) := gd in
    let! d := (if 1 <? i then run [LoadM (N - i)] d else Ok d) in
    let! t := getM T unit En (N - i) (W d) in
    let! g := grow_group R (N - i) g t in
    let! d := run [FreeM (N - i)] d in
    Ok (g, d).
Lemma bound_loop_ok : forall n i ts d d', 1 <= i -> i + n <= N -> inv0 ts i d d' -> op d' = op d ->
  exists d2, for_loop i n (bound_body N) (map Some (right_env ts (i - 1)), d') = Ok (map Some (right_env ts (i + n - 1)), d2) /\ inv0 ts (i + n) d d2 /\ op d2 = op d.
Proof.
  induction n as [|n IH]; intros i ts d d' Hi Hn HI HF.
  - rewrite Nat.add_0_r. exists d'. auto.
  - cbn [for_loop]. unfold bound_body at 1. destruct (inv0_load ts i d d' ltac:(lia) HI) as [d1 [A1 [A2 [A3 [A4 [A5 [A6 [A7 [A8 A9]]]]]]]]]. rewrite A1. cbn [bind].
    rewrite (getM_one ts) by (auto; lia). cbn [bind]. rewrite grow_ok by (rewrite right_len by lia; f_equal; lia). cbn [bind]. rewrite <- right_env_S by lia.
    destruct (free_one ts (N - i) d1) as [d3 [C1 [C2 [C3 [C4 [C5 [C6 [C7 C8]]]]]]]]; auto; [lia|]. rewrite C1. cbn [bind].
    destruct (IH (S i) ts d d3) as [d4 [E1 [E2 E3]]]; try lia.
    + split; [auto|]. split; [auto|]. split; [replace (S i =? 1) with false by (symmetry; apply Nat.eqb_neq; lia); auto|]. split; [eapply same_flags_trans; eauto|]. rewrite C7, C8; auto.
    + congruence.
    + replace (S i - 1) with i in E1 by lia. replace (i + S n) with (S i + n) by lia. exists d4. auto.
Qed.
Definition left_body : nat -> group C * dst -> res (group C * dst) := fun i gd =>
        let (g, d) := gd in
        let! d := (if 0 <? i then run [LoadM i] d else Ok d) in
        let! t := getM T unit En i (W d) in
        let! g := grow_group L i g t in
        let! d := run [FreeM i] d in
        Ok (g, d).
Definition inv1 (ts : nat -> T) (i : nat) (d d' : dst) : Prop :=
  nm (W d') = N /\ on_disk T unit En N ts (W d') /\ (if i =? 0 then mm (W d') 0 = Some (ts 0) /\ at_most 0 d' else mem_empty T unit En N (W d')) /\
  same_flags d d' /\ eng (W d') = eng (W d) /\ tmp (W d') = tmp (W d).
Lemma left_loop_ok : forall n i ts d d', i + n < N -> inv1 ts i d d' -> op d' = op d ->
  exists d2, for_loop i n left_body (map Some (left_env ts i), d') = Ok (map Some (left_env ts (i + n)), d2) /\ inv1 ts (i + n) d d2 /\ op d2 = op d.
Proof.
  induction n as [|n IH]; intros i ts d d' Hn HI HF.
  - rewrite Nat.add_0_r. exists d'. auto.
  - cbn [for_loop]. unfold left_body at 1.
    assert (LD : exists d1, (if 0 <? i then run [LoadM i] d' else Ok d') = Ok d1 /\
      nm (W d1) = N /\ on_disk T unit En N ts (W d1) /\ mm (W d1) i = Some (ts i) /\ at_most i d1 /\ same_flags d d1 /\ op d1 = op d' /\ eng (W d1) = eng (W d) /\ tmp (W d1) = tmp (W d)).
    { destruct HI as [A1 [A2 [A3 [A4 [A5 A6]]]]]. destruct (Nat.eqb_spec i 0) as [->|Hz].
      - exists d'. cbn. destruct A3 as [A3 A3']. repeat (split; [solve [auto]|]). auto.
      - rewrite ltb_t by lia. destruct (load_one ts i d') as [d1 [B1 [B2 [B3 [B4 [B5 [B6 [B7 [B8 B9]]]]]]]]]; auto; [lia|intros j Hj _; apply A3; auto|].
        exists d1. split; [auto|]. split; [auto|]. split; [auto|]. split; [auto|]. split; [auto|]. split; [eapply same_flags_trans; eauto|]. split; [auto|]. split; congruence. }
    destruct LD as [d1 [A1 [A2 [A3 [A4 [A5 [A6 [A7 [A8 A9]]]]]]]]]. rewrite A1. cbn [bind].
    rewrite (getM_one ts) by (auto; lia). cbn [bind]. rewrite grow_ok by (apply left_len; lia). cbn [bind].
    destruct (free_one ts i d1) as [d3 [C1 [C2 [C3 [C4 [C5 [C6 [C7 C8]]]]]]]]; auto; [lia|]. rewrite C1. cbn [bind].
    destruct (IH (S i) ts d d3) as [d4 [E1 [E2 E3]]]; try lia.
    + split; [auto|]. split; [auto|]. split; [cbn; auto|]. split; [eapply same_flags_trans; eauto|]. rewrite C7, C8; auto.
    + congruence.
    + replace (i + S n) with (S i + n) by lia. exists d4. auto.
Qed.
Lemma boundary_ops_ok : forall ts d, nm (W d) = N -> on_disk T unit En N ts (W d) -> mem_empty T unit En N (W d) ->
  (forall n, N - rb < n <= N - 2 - lb -> on_file (op d) R n (right_env ts n)) -> exists d', boundary_ops lb rb d = Ok d' /\
  nm (W d') = N /\ on_disk T unit En N ts (W d') /\ mem_empty T unit En N (W d') /\ same_flags d d' /\ eng (W d') = eng (W d) /\ tmp (W d') = tmp (W d) /\
  (forall n, N - 1 - rb <= n <= N - 2 - lb -> on_file (op d') R n (right_env ts n)) /\ on_file (op d') L lb (left_env ts lb).
Proof.
  intros ts d H1 H2 H3 H4. unfold Dmrg.boundary_ops. rewrite H1.
  destruct (load_one ts (N - 1) d) as [d1 [A1 [A2 [A3 [A4 [A5 [A6 [A7 [A8 A9]]]]]]]]]; auto; [lia|intros j Hj _; auto|]. rewrite A1. cbn [bind].
  rewrite (getM_one ts) by (auto; lia). cbn [bind].
  destruct (bound_loop_ok (N - rb - 1) 1 ts d d1) as [d2 [B1 [B2 B3]]]; try lia; auto.
  { split; [auto|]. split; [auto|]. split; [cbn; auto|]. auto. }
  unfold bound_body in B1. change (right_env ts (1 - 1)) with [trivc R] in B1. cbn [map] in B1. rewrite B1. cbn [bind]. clear B1.
  replace (1 + (N - rb - 1) - 1) with (N - 1 - rb) by lia. replace (1 + (N - rb - 1)) with (N - rb) in B2 by lia.
  destruct (write_run R (N - 1 - rb) (right_env ts (N - 1 - rb)) d2) as [d3 [C1 [C2 [C3 [C4 C5]]]]]. rewrite C1. cbn [bind].
  destruct B2 as [D1 [D2 [D3 [D4 [D5 D6]]]]].
  assert (AM : at_most rb d3).
  { intros j Hj Hn. rewrite C2. destruct (Nat.eqb_spec (N - rb) 1) as [E|E]; [|apply D3; auto]. destruct D3 as [_ D3]. apply D3; auto. lia. }
  destruct (load_one ts rb d3) as [d4 [E1 [E2 [E3 [E4 [E5 [E6 [E7 [E8 E9]]]]]]]]]; rewrite ?C2; auto. rewrite E1. cbn [bind].
  rewrite (getM_one ts) by (auto; lia). cbn [bind]. rewrite grow_ok by (rewrite right_len by lia; f_equal; lia). cbn [bind].
  replace (growc R rb (right_env ts (N - 1 - rb)) (ts rb)) with (right_env ts (N - rb)) by (rewrite right_env_S by lia; replace (N - (N - rb)) with rb by lia; replace (N - rb - 1) with (N - 1 - rb) by lia; auto).
  destruct (free_one ts rb d4) as [d5 [F1 [F2 [F3 [F4 [F5 [F6 [F7 F8]]]]]]]]; auto. rewrite F1. cbn [bind].
  destruct (write_run R (N - rb) (right_env ts (N - rb)) d5) as [d6 [G1 [G2 [G3 [G4 G5]]]]]. rewrite G1. cbn [bind].
  destruct (load_one ts 0 d6) as [d7 [I1 [I2 [I3 [I4 [I5 [I6 [I7 [I8 I9]]]]]]]]]; rewrite ?G2; auto; [lia|intros j Hj _; rewrite G2; auto|]. rewrite I1. cbn [bind].
  rewrite (getM_one ts) by (auto; lia). cbn [bind].
  assert (SF : same_flags d d7). { eapply same_flags_trans; [exact D4|]. eapply same_flags_trans; [exact C3|]. eapply same_flags_trans; [exact E6|]. eapply same_flags_trans; [exact F5|]. eapply same_flags_trans; [exact G3|exact I6]. }
  assert (EN : eng (W d7) = eng (W d)) by (rewrite I8, G2, F7, E8, C2; auto).
  assert (TM : tmp (W d7) = tmp (W d)) by (rewrite I9, G2, F8, E9, C2; auto).
  assert (LF : exists d8, (if 0 <? lb then for_loop 0 lb left_body ([Some (trivc L)], d7) else let! d := run [FreeM 0] d7 in Ok ([Some (trivc L)], d)) = Ok (map Some (left_env ts lb), d8) /\
    nm (W d8) = N /\ on_disk T unit En N ts (W d8) /\ mem_empty T unit En N (W d8) /\ same_flags d d8 /\ eng (W d8) = eng (W d) /\ tmp (W d8) = tmp (W d) /\ op d8 = op d7).
  { destruct (Nat.ltb_spec 0 lb) as [Hl|Hl].
    - destruct (left_loop_ok lb 0 ts d7 d7) as [d8 [J1 [J2 J3]]]; try lia; auto.
      { split; [auto|]. split; [auto|]. split; [cbn; auto|]. repeat split. }
      cbn [plus SweepSpec.left_env map] in J1, J2. change (left_env ts 0) with [trivc L] in J1. cbn [map] in J1. exists d8. split; [exact J1|].
      destruct J2 as [K1 [K2 [K3 [K4 [K5 K6]]]]]. replace (lb =? 0) with false in K3 by (symmetry; apply Nat.eqb_neq; lia).
      split; [auto|]. split; [auto|]. split; [auto|]. split; [eapply same_flags_trans; eauto|]. split; [congruence|]. split; congruence.
    - destruct (free_one ts 0 d7) as [d8 [J1 [J2 [J3 [J4 [J5 [J6 [J7 J8]]]]]]]]; auto; [lia|]. rewrite J1. cbn [bind]. exists d8. replace lb with 0 by lia. split; [reflexivity|].
      split; [auto|]. split; [auto|]. split; [auto|]. split; [eapply same_flags_trans; eauto|]. split; [congruence|]. split; congruence. }
  destruct LF as [d8 [L1 [L2 [L3 [L4 [L5 [L6 [L7 L8]]]]]]]]. unfold left_body in L1. rewrite L1. cbn [bind]. clear L1.
  destruct (write_run L lb (left_env ts lb) d8) as [d9 [M1 [M2 [M3 [M4 M5]]]]]. exists d9. split; [auto|]. rewrite M2. split; [auto|]. split; [auto|]. split; [auto|].
  split; [eapply same_flags_trans; eauto|]. split; [auto|]. split; [auto|]. split; [|auto].
  intros n Hn.
  assert (P6 : on_file (op d6) R n (right_env ts n)).
  { destruct (Nat.eq_dec n (N - rb)) as [->|N1]; auto. apply (on_file_ext (op d5)); [intros c; apply G5; auto|]. rewrite F6, E7.
    destruct (Nat.eq_dec n (N - 1 - rb)) as [->|N2]; auto. apply (on_file_ext (op d2)); [intros c; apply C5; auto|]. rewrite B3. apply H4. lia. }
  apply (on_file_ext (op d6)); auto. intros c. rewrite M5 by (left; discriminate). rewrite L8, I7. auto.
Qed.

(** *** the whole run *)
Lemma opt_e : forall b ts e e', opt b (ts, e) = opt b (ts, e').
Proof. intros [rt l] ts e e'. reflexivity. Qed.
Lemma opts_e : forall bs ts e e', fst (opts bs (ts, e)) = fst (opts bs (ts, e')) /\ (bs <> [] -> snd (opts bs (ts, e)) = snd (opts bs (ts, e'))).
Proof. intros [|b bs] ts e e'; [cbn; split; [auto|congruence]|]. unfold SweepSpec.opts. cbn [fold_left]. rewrite (opt_e b ts e e'). auto. Qed.
Lemma bonds_ne : bonds lb rb <> [].
Proof. intros H. pose proof bonds_len as B. rewrite H in B. unfold blen in B. cbn in B. lia. Qed.
Lemma sweeps_e : forall m ts e e', fst (sweeps_spec lb rb m (ts, e)) = fst (sweeps_spec lb rb m (ts, e')) /\ (m <> 0 -> snd (sweeps_spec lb rb m (ts, e)) = snd (sweeps_spec lb rb m (ts, e'))).
Proof.
  intros [|m] ts e e'; [cbn; split; [auto|congruence]|]. cbn [SweepSpec.sweeps_spec].
  destruct (opts_e (bonds lb rb) ts e e') as [A B]. specialize (B bonds_ne). rewrite (surjective_pairing (opts (bonds lb rb) (ts, e))), A, B, <- surjective_pairing. auto.
Qed.
Lemma part_e : forall m j ts e e', 1 <= j -> opts (firstn j (bonds lb rb)) (sweeps_spec lb rb m (ts, e)) = opts (firstn j (bonds lb rb)) (sweeps_spec lb rb m (ts, e')).
Proof.
  intros m j ts e e' Hj. destruct (sweeps_e m ts e e') as [A _]. rewrite (surjective_pairing (sweeps_spec lb rb m (ts, e))), (surjective_pairing (sweeps_spec lb rb m (ts, e'))), A.
  destruct (bonds lb rb) as [|b bs] eqn:EB; [destruct (bonds_ne EB)|]. destruct j; [lia|]. cbn [firstn]. unfold SweepSpec.opts. cbn [fold_left]. rewrite (opt_e b _ _ (snd (sweeps_spec lb rb m (ts, e')))). auto.
Qed.

(** all tensors on disk after m sweeps and with the center moved to site 0; the objects still in memory are the same; the right block operators fit the files *)
Definition finished (ts0 : nat -> T) (m : nat) (d' : dst) : Prop :=
  let ts1 := center_to_0 T canoR (lb + 1) (fst (sweeps_spec lb rb m (ts0, None))) in
  nm (W d') = N /\ on_disk T unit En N ts1 (W d') /\ (forall j, j < N -> mm (W d') j = if j <=? lb + 1 then Some (ts1 j) else None) /\
  (m <> 0 -> eng (W d') = snd (sweeps_spec lb rb m (ts0, None))) /\
  (forall n, N - 1 - rb <= n <= N - 2 - lb -> on_file (op d') R n (right_env ts1 n)).
(** all tensors on disk after m sweeps and j updates, nothing in memory *)
Definition stopped (ts0 : nat -> T) (m j : nat) (d' : dst) : Prop :=
  let s := opts (firstn j (bonds lb rb)) (sweeps_spec lb rb m (ts0, None)) in safe (fst s) d' /\ eng (W d') = snd s.
(** after m sweeps the tensor of site lb+1 is only in memory: its file is whatever it was before *)
Definition lost (ts0 : nat -> T) (m : nat) (d' : dst) : Prop :=
  let s := sweeps_spec lb rb m (ts0, None) in
  nm (W d') = N /\ (forall j, j < N -> j <> lb + 1 -> dm (W d') j = Some (fst s j)) /\ (forall j, j < N -> mm (W d') j = if j =? lb + 1 then Some (fst s j) else None) /\
  (m <> 0 -> eng (W d') = snd s).
(** right block operators left by an earlier run in the same directory, if complete, are those of the prepared chain *)
Definition ops_fresh (ts0 : nat -> T) (d : dst) : Prop :=
  tmp (W d) = true -> (forall n c, N - 1 - rb <= n <= N - 2 - lb -> c < cols (N - 1 - n) -> op d R n c <> None) ->
  forall n, N - rb < n <= N - 2 - lb -> on_file (op d) R n (right_env ts0 n).

Lemma dmrg_init_ok : forall ts ts0 d, 3 <= N -> prep ts = (lb, rb, ts0) -> nm (W d) = N -> mem_empty T unit En N (W d) -> on_disk T unit En N ts (W d) -> ops_fresh ts0 d ->
  exists d', dmrg_init d = Ok (lb, rb, d') /\ nm (W d') = N /\ on_disk T unit En N ts0 (W d') /\ mem_empty T unit En N (W d') /\ same_flags d d' /\ tmp (W d') = true /\
    (forall n, N - 1 - rb <= n <= N - 2 - lb -> on_file (op d') R n (right_env ts0 n)) /\ on_file (op d') L lb (left_env ts0 lb).
Proof.
  intros ts ts0 d H3 HP H1 HM HD HF. unfold Dmrg.dmrg_init.
  destruct (boundary_ok T unit En dT tt (fun _ => tt) (fun _ _ _ _ => tt) usolve canoL canoR bigL smallL bigR smallR combL combR dbg N ts (W d) H3 H1 HM HD)
    as [lb' [rb' [ts' [w [A1 [A2 [A3 [A4 A5]]]]]]]]. rewrite HP in A1. inversion A1; subst lb' rb' ts'. rewrite A2. cbn [bind].
  destruct A3 as [K1 [K2 [K3 K4]]].
  assert (MID : exists d2, (if tmp w then (if ops_missing T C En cols lb rb (setW T C En w d) then init_ops lb (setW T C En w d) else Ok (setW T C En w d))
             else let! d := run [Mkdir] (setW T C En w d) in init_ops lb d) = Ok d2 /\ nm (W d2) = N /\ on_disk T unit En N ts0 (W d2) /\ mem_empty T unit En N (W d2) /\ same_flags d d2 /\ tmp (W d2) = true /\
             (forall n, N - rb < n <= N - 2 - lb -> on_file (op d2) R n (right_env ts0 n))).
  { destruct (tmp w) eqn:ET.
    - destruct (ops_missing T C En cols lb rb (setW T C En w d)) eqn:EM.
      + destruct (init_ops_ok ts0 (setW T C En w d)) as [d2 [B1 [B2 [B3 [B4 [B5 [B6 [B7 B8]]]]]]]]; auto; [dd; congruence|]. exists d2. split; [auto|]. split; [auto|]. split; [auto|]. split; [auto|]. split; [exact B5|]. split; [rewrite B7; auto|]. intros n Hn. apply B8. lia.
      + exists (setW T C En w d). split; [auto|]. dd. split; [congruence|]. split; [auto|]. split; [auto|]. split; [repeat split|]. split; [auto|].
        apply HF; [congruence|]. intros n c Hn Hc. unfold ops_missing in EM. apply negb_false_iff in EM. rewrite forallb_forall in EM.
        assert (IS : In (N - 1 - n) (rev (seq (lb + 1) (rb - lb)))) by (apply -> in_rev; apply in_seq; lia).
        specialize (EM _ IS). rewrite forallb_forall in EM. specialize (EM c ltac:(apply in_seq; lia)). revert EM. dd. rewrite K1, H1. replace (N - 1 - (N - 1 - n)) with n by lia. destruct (op d R n c); [discriminate|cbn; discriminate].
    - rewrite (run_exec _ _ (set_tmp T unit En true w)) by apply ex_Mkdir. cbn [bind].
      destruct (init_ops_ok ts0 (setW T C En (set_tmp T unit En true w) (setW T C En w d))) as [d2 [B1 [B2 [B3 [B4 [B5 [B6 [B7 B8]]]]]]]]; auto; [cbn; congruence|]. exists d2. split; [auto|]. split; [auto|]. split; [auto|]. split; [auto|]. split; [exact B5|]. split; [rewrite B7; auto|]. intros n Hn. apply B8. lia. }
  destruct MID as [d2 [B1 [B2 [B3 [B4 [B5 [B6 B7]]]]]]]. rewrite B1. cbn [bind].
  destruct (boundary_ops_ok ts0 d2 B2 B3 B4 B7) as [d3 [C1 [C2 [C3 [C4 [C5 [C6 [C7 [C8 C9]]]]]]]]]. rewrite C1. cbn [bind].
  rewrite (run_exec _ _ (W d3)) by (apply ex_EmptyM; intros i Hi; apply C4; congruence). cbn [bind].
  exists (setW T C En (W d3) d3). dd. split; [auto|]. split; [auto|]. split; [auto|]. split; [auto|]. split; [exact (same_flags_trans _ _ _ B5 C5)|]. split; [congruence|auto].
Qed.

Lemma execute_ok : forall n ts ts0 d, 3 <= N -> prep ts = (lb, rb, ts0) -> nm (W d) = N -> mem_empty T unit En N (W d) -> on_disk T unit En N ts (W d) -> ops_fresh ts0 d ->
  clk d = c0 -> stp d = pS -> emg d = pE ->
  exists d', execute n d = Ok d' /\ tmp (W d') = true /\ flags_ok d' /\
  ((exists m, finished ts0 m d' /\ m <= n /\ (n <> 0 -> 1 <= m) /\ (forall q, q + 1 < m -> goes_on q) /\
      (m = n \/ 1 <= m /\ visS (tm (m - 1) + blen)) /\
      ~ visE (if m =? n then if m =? 0 then tm 0 else tm (m - 1) + blen + 1 else tm (m - 1) + blen + 1)) \/
   (exists m j, stopped ts0 m j d' /\ m < n /\ 1 <= j <= blen /\ visE (tm m + j - 1) /\ (forall t, tm m <= t < tm m + j - 1 -> ~ visE t) /\ (forall q, q < m -> goes_on q)) \/
   (exists m, lost ts0 m d' /\ m <= n /\ (n <> 0 -> 1 <= m) /\ (forall q t, q < m -> tm q <= t < tm q + blen -> ~ visE t) /\ (forall q, q + 1 < m -> goes_on q) /\ visE (tm m) /\
      (m = n \/ 1 <= m /\ (visS (tm (m - 1) + blen) \/ visE (tm (m - 1) + blen + 1))))).
Proof.
  intros n ts ts0 d H3 HP H1 HM HD HF HC HS HE. unfold Dmrg.execute.
  destruct (dmrg_init_ok ts ts0 d H3 HP H1 HM HD HF) as [d1 [A1 [A2 [A3 [A4 [A5 [A6 [A7 A8]]]]]]]]. rewrite A1. cbn [bind].
  destruct (load_one ts0 (lb + 1) d1) as [d2 [B1 [B2 [B3 [B4 [B5 [B6 [B7 [B8 B9]]]]]]]]]; auto; [lia|intros j Hj _; auto|]. rewrite B1. cbn [bind].
  assert (FL : flags_ok d2).
  { destruct A5 as [Z1 [Z2 Z3]], B6 as [Y1 [Y2 Y3]]. unfold flags_ok. rewrite Y1, Y2, Y3, Z1, Z2, Z3, HC, HS, HE. split; [lia|]. split; (split; [auto|intros [H|[u [Hu _]]]; [auto|lia]]). }
  assert (CK : clk d2 = tm 0) by (destruct A5 as [_ [_ Z3]], B6 as [_ [_ Y3]]; unfold tm; rewrite Y3, Z3, HC; lia).
  assert (RP : rpoint ts0 lb d2).
  { split; [|split; intros; lia]. rewrite Nat.eqb_refl. constructor; auto.
    - intros j Hj. destruct (Nat.eqb_spec j (lb + 1)) as [->|Hn]; auto.
    - intros n0 Hn. rewrite B7. apply A7. lia.
    - intros n0 Hn. rewrite B7. replace n0 with lb by lia. auto. }
  destruct (sweeps_ok n 0 ts0 (eng (W d2)) d2 RP FL eq_refl CK)
    as [[m [d3 [C0 [C1 [C2 [C3 [C4 [C5 [C6 [C7 [C8 C9]]]]]]]]]]]|[m [j [d3 [C0 [C1 [C2 [C3 [C4 [C5 [C6 [C7 [C8 [C9 C10]]]]]]]]]]]]]].
  - rewrite C2. cbn [bind]. destruct (poll_ok d3 C6) as [Q1 [Q2 [Q3 [Q4 [Q5 [_ [_ Q8]]]]]]]. cbn [plus] in *.
    destruct (sweeps_e m ts0 (eng (W d2)) None) as [E1 E2]. rewrite E1 in C3.
    destruct (emg (poll d3)) eqn:EG.
    + exists (poll d3). split; [auto|]. split; [rewrite Q5; congruence|]. split; [auto|]. right. right. exists m.
      destruct C3 as [[P1 P2 P3 P4 P5] _]. rewrite Nat.eqb_refl in *. split.
      { unfold lost. rewrite Q5. split; [auto|]. split; [auto|]. split; [auto|]. intros Hm. rewrite C4. auto. }
      split; [auto|]. split; [auto|]. split; [intros q t Hq; apply C7; lia|]. split; [intros q Hq; apply C8; lia|].
      split; [|destruct C9 as [[J1 [J2 J3]]|[[J1 [J2 J3]]|[J1 [J2 [J3 J4]]]]]; [left; auto|right; auto|right; auto]].
      apply (vis_mono _ _ (clk d3)); [|apply Q3; auto]. destruct C9 as [[J1 [J2 J3]]|[[J1 [J2 J3]]|[J1 [J2 [J3 J4]]]]]; [lia| |lia]. assert (TS : tm m = tm (m - 1) + blen + 2) by (rewrite <- tm_S; f_equal; lia). lia.
    + destruct C3 as [[P1 P2 P3 P4 P5] _]. rewrite Nat.eqb_refl in *.
      set (ts2 := fst (sweeps_spec lb rb m (ts0, None))) in *.
      assert (NV : ~ visE (clk d3)) by (intros V; apply Q3 in V; congruence).
      assert (EX : exec [DumpM (lb + 1) true] (W (poll d3)) = Ok (set_dm T unit En (fset (dm (W d3)) (lb + 1) (Some (ts2 (lb + 1)))) (set_mm T unit En (fset (mm (W d3)) (lb + 1) None) (W d3)))).
      { rewrite Q5. rewrite (ex_DumpM _ _ _ _ _ _ _ _ _ _ _ _ _ _ _ (ts2 (lb + 1))); [reflexivity|lia|rewrite P2 by lia; rewrite Nat.eqb_refl; auto]. }
      rewrite (run_exec _ _ _ EX). cbn [bind]. match goal with |- context [setW T C En ?v] => set (w4 := v) end.
      destruct (post_ok ts2 w4) as [w5 [D1 [D2 [D3 [D4 [D5 D6]]]]]].
      { auto. } { intros j Hj. unfold w4. dd. unfold fset. specialize (P2 j Hj). destruct (Nat.eqb_spec j (lb + 1)); auto. }
      { intros j Hj. unfold w4. dd. unfold fset. destruct (Nat.eqb_spec j (lb + 1)); subst; auto. }
      rewrite (run_exec _ _ w5) by exact D1. eexists. split; [reflexivity|]. dd. split; [rewrite D4; unfold w4; dd; congruence|]. split; [exact Q1|].
      left. exists m. split.
      { unfold finished. fold ts2. dd. split; [auto|]. split; [exact D5|]. split; [auto|]. split; [intros Hm; rewrite D3; unfold w4; dd; rewrite C4; auto|].
        intros n0 Hn. rewrite Q8. rewrite (right_env_ext _ _ _ _ _ _ ts2) by (try lia; intros i Hi; apply center_to_0_out; lia). apply P4. lia. }
      split; [auto|]. split; [auto|]. split; [intros q Hq; apply C8; lia|].
      destruct C9 as [[J1 [J2 J3]]|[[J1 [J2 J3]]|[J1 [J2 [J3 J4]]]]].
      * split; [auto|]. subst m. rewrite Nat.eqb_refl. destruct (Nat.eqb_spec n 0) as [->|Hn]; [rewrite <- J2; auto|]. apply J3. lia.
      * split; [right; auto|]. rewrite J3 in NV. replace (m =? 0) with false by (symmetry; apply Nat.eqb_neq; lia). destruct (m =? n); auto.
      * exfalso. apply NV. apply (vis_mono _ _ (tm (m - 1) + blen + 1)); auto. rewrite J4. assert (TS : tm m = tm (m - 1) + blen + 2) by (rewrite <- tm_S; f_equal; lia). lia.
  - rewrite C5. cbn [bind]. destruct (poll_ok d3 C9) as [Q1 [Q2 [Q3 [Q4 [Q5 [_ [_ Q8]]]]]]]. cbn [plus] in *.
    assert (EG : emg (poll d3) = true) by (apply Q3; apply (vis_mono _ _ (tm m + j - 1)); [lia|auto]). rewrite EG.
    exists (poll d3). split; [auto|]. split; [rewrite Q5; congruence|]. split; [auto|]. right. left. exists m, j.
    rewrite (part_e m j ts0 _ None ltac:(lia)) in *. split.
    { split; [apply safe_poll; auto|rewrite Q5; auto]. }
    split; [auto|]. split; [auto|]. split; [auto|]. split; [auto|]. intros q Hq. apply C4. lia.
Qed.
End Facts.
