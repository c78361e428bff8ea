(** Repeated and interrupted TDVP runs: which files are written when. *)
From Coq Require Import List Arith Lia Bool QArith.
From Verif Require Import Base Disk SweepSpec DiskFacts TwoSite TwoSiteFacts Tdvp TdvpSpec TdvpFacts TdvpRun TdvpAgainSpec.
Import ListNotations.
Local Open Scope nat_scope.

(** how often the file of site j is written *)
Definition dump1 (j : nat) (c : tinstr) : nat := match c with TB (DumpM i _) => if i =? j then 1 else 0 | _ => 0 end.
Fixpoint dumps (j : nat) (p : list tinstr) : nat := match p with [] => 0 | c :: p => dump1 j c + dumps j p end.
Lemma dumps_app j p q : dumps j (p ++ q) = dumps j p + dumps j q.
Proof. induction p as [|c p IH]; cbn; auto. rewrite IH. lia. Qed.
Lemma dumps_right N tau j i : dumps j (tstep_right N tau i) = if i =? j then 1 else 0.
Proof. unfold tstep_right. rewrite !dumps_app. unfold load_right, dump_right. destruct (i =? 0), (i =? j) eqn:X; cbn; rewrite ?X; lia. Qed.
Lemma dumps_left N tau j i : dumps j (tstep_left N tau i) = if i =? j then 1 else 0.
Proof. unfold tstep_left. rewrite !dumps_app. unfold load_left, dump_left. destruct (i =? N - 1), (i =? j) eqn:X; cbn; rewrite ?X; lia. Qed.
Lemma dumps_rights N tau j : forall k s, dumps j (flat_map (tstep_right N tau) (seq s k)) = if (s <=? j) && (j <? s + k) then 1 else 0.
Proof.
  induction k as [|k IH]; intros s; cbn [seq flat_map]; [destruct (Nat.leb_spec s j), (Nat.ltb_spec j (s + 0)); cbn; lia|].
  rewrite dumps_app, dumps_right, IH. destruct (Nat.eqb_spec s j), (Nat.leb_spec s j), (Nat.leb_spec (S s) j), (Nat.ltb_spec j (s + S k)), (Nat.ltb_spec j (S s + k)); cbn; lia.
Qed.
Lemma dumps_lefts N tau j : forall k s, dumps j (flat_map (tstep_left N tau) (rev (seq s k))) = if (s <=? j) && (j <? s + k) then 1 else 0.
Proof.
  induction k as [|k IH]; intros s; [destruct (Nat.leb_spec s j), (Nat.ltb_spec j (s + 0)); cbn; lia|].
  rewrite seq_S, rev_unit. cbn [flat_map]. rewrite dumps_app, dumps_left, IH. destruct (Nat.eqb_spec (s + k) j), (Nat.leb_spec s j), (Nat.ltb_spec j (s + S k)), (Nat.ltb_spec j (s + k)); cbn; lia.
Qed.

Section Run.
Variables T E M V : Type.
Variables (dT : T) (dE : E) (dM : M) (triv : side -> E) (grow : side -> nat -> E -> T -> E).
Variables (canoL canoR : T -> T -> T * T).
Variable evo : bool -> nat -> Q -> E -> T -> T -> E -> T * T.
Variable back : nat -> Q -> E -> T -> E -> T.
Variable dbg : bool.
Variable actO : T -> T.
Variable actI : option (T -> T).
Variables (mtr mtl : M) (mgr : T -> T -> M -> M) (mgl : M -> T -> T -> M) (mval : M -> T -> T -> M -> V).
Variable phase : Q -> V -> V.
Variable N : nat.
Notation world := (world T E unit).
Notation exec1 := (exec1 T E unit dT dE triv grow (no_solve T E) canoL canoR dbg).
Notation exec := (exec T E unit dT dE triv grow (no_solve T E) canoL canoR dbg).
Notation texec1 := (texec1 T E dT dE triv grow canoL canoR evo back dbg).
Notation texec := (texec T E dT dE triv grow canoL canoR evo back dbg).
Notation sweep_run := (sweep_run T E dT dE triv grow canoL canoR evo back dbg).
Notation nm := (nm T E unit). Notation mm := (mm T E unit). Notation dm := (dm T E unit).
Notation crash := (crash T E unit).
Notation tau_step := (tau_step T E triv grow evo back N).
Notation halfway := (halfway T E triv grow evo back N).
Notation tready := (tready T E triv grow N).
Notation idle := (idle T E N).
Notation init_state := (init_state T E dT dE triv grow canoL canoR dbg actO actI).
Notation tdvp_run := (tdvp_run T E M V dT dE dM triv grow canoL canoR evo back dbg actO actI mtr mtl mgr mgl mval phase).
Notation after := (after T E triv grow evo back N).
Notation begun := (begun T canoR actO actI).
Notation partly := (partly T actO actI).
Notation act1 := (act1 T E dT dE triv grow canoL canoR dbg).
Notation records := (records T M V N mtr mtl mgr mgl mval phase).

Ltac inv H := repeat match type of H with
  | bind ?x _ = Ok _ => let X := fresh "X" in destruct x eqn:X; cbn [bind] in H; [|discriminate|discriminate]
  | (if ?b then _ else _) = Ok _ => let B := fresh "B" in destruct b eqn:B; [|try discriminate]
  end.
Lemma putM_keep i t w w' : putM T E unit i t w = Ok w' -> nm w' = nm w /\ dm w' = dm w.
Proof. unfold putM. destruct (i <? nm w); [|discriminate]. intros H. injection H as <-. auto. Qed.
Lemma putE_keep s i e w w' : putE T E unit s i e w = Ok w' -> nm w' = nm w /\ dm w' = dm w.
Proof. unfold putE. destruct (i <? _); [|discriminate]. intros H. injection H as <-. destruct s; auto. Qed.
Lemma exec1_keep j c w w' : exec1 c w = Ok w' -> dump1 j (TB c) = 0 -> nm w' = nm w /\ dm w' j = dm w j.
Proof.
  intros H D. destruct c; cbn [Disk.exec1] in H.
  - injection H as <-. auto.
  - destruct (i <? nm w); [|discriminate]. destruct (dm w i); [|discriminate]. injection H as <-. auto.
  - destruct (i <? nm w); [|discriminate]. injection H as <-. cbn in D. split; [reflexivity|]. cbn. unfold fset. destruct (Nat.eqb_spec j i); auto. subst. rewrite Nat.eqb_refl in D. discriminate.
  - destruct (i <? nm w); [|discriminate]. injection H as <-. auto.
  - destruct (_ || _); [|discriminate]. injection H as <-. auto.
  - injection H as <-. auto.
  - destruct (_ <? _); [|discriminate]. destruct (de_ _ _ _ _ _ _); [|discriminate]. injection H as <-. destruct s; auto.
  - destruct (_ <? _); [|discriminate]. injection H as <-. destruct s; auto.
  - destruct (_ <? _); [|discriminate]. injection H as <-. destruct s; auto.
  - injection H as <-. destruct s; auto.
  - destruct (getM _ _ _ _ _); try discriminate. injection H as <-. auto.
  - destruct (use _); try discriminate. cbn [bind] in H. destruct (getM _ _ _ _ _); try discriminate. injection H as <-. auto.
  - destruct (use _); try discriminate. injection H as <-. destruct s; auto.
  - destruct (getE _ _ _ L _ _); try discriminate. cbn [bind] in H. destruct (getE _ _ _ R _ _); try discriminate. cbn [bind] in H.
    destruct (getM _ _ _ l _); try discriminate. cbn [bind] in H. destruct (getM _ _ _ (l + 1) _); try discriminate. cbn [bind no_solve] in H.
    destruct (putM _ _ _ l _ w) as [w1| |] eqn:P1; try discriminate. cbn [bind] in H. destruct (putM _ _ _ (l + 1) _ w1) as [w2| |] eqn:P2; try discriminate. cbn [bind] in H.
    destruct (if rt then _ else _) as [w3| |] eqn:P3; try discriminate. injection H as <-. apply putM_keep in P1, P2. destruct P1 as [A1 A2], P2 as [B1 B2].
    assert (P : nm w3 = nm w2 /\ dm w3 = dm w2) by (destruct rt; apply putE_keep in P3; auto). destruct P as [C1 C2]. cbn. split; congruence.
  - destruct (getM _ _ _ i w); try discriminate. cbn [bind] in H. destruct (getM _ _ _ (i + 1) w); try discriminate. cbn [bind] in H. match type of H with context [let (_, _) := ?x in _] => destruct x end.
    destruct (putM _ _ _ i _ w) as [w1| |] eqn:P1; try discriminate. cbn [bind] in H. apply putM_keep in P1, H. destruct P1, H. split; congruence.
  - destruct (getM _ _ _ (i - 1) w); try discriminate. cbn [bind] in H. destruct (getM _ _ _ i w); try discriminate. cbn [bind] in H. match type of H with context [let (_, _) := ?x in _] => destruct x end.
    destruct (putM _ _ _ (i - 1) _ w) as [w1| |] eqn:P1; try discriminate. cbn [bind] in H. apply putM_keep in P1, H. destruct P1, H. split; congruence.
Qed.
Lemma texec1_keep j c w w' : texec1 c w = Ok w' -> dump1 j c = 0 -> nm w' = nm w /\ dm w' j = dm w j.
Proof.
  intros H D. destruct c as [c|rt l tau|i tau]; cbn [Tdvp.texec1] in H.
  - eapply exec1_keep; eauto.
  - destruct (getE _ _ _ L _ _); try discriminate. cbn [bind] in H. destruct (getE _ _ _ R _ _); try discriminate. cbn [bind] in H.
    destruct (getM _ _ _ l _); try discriminate. cbn [bind] in H. destruct (getM _ _ _ (l + 1) _); try discriminate. cbn [bind] in H. destruct (evo _ _ _ _ _ _ _) as [x y].
    destruct (putM _ _ _ l _ w) as [w1| |] eqn:P1; try discriminate. cbn [bind] in H. destruct (putM _ _ _ (l + 1) _ w1) as [w2| |] eqn:P2; try discriminate. cbn [bind] in H.
    apply putM_keep in P1, P2. destruct P1 as [A1 A2], P2 as [B1 B2]. destruct rt; apply putE_keep in H; destruct H; split; congruence.
  - destruct (getE _ _ _ L _ _); try discriminate. cbn [bind] in H. destruct (getE _ _ _ R _ _); try discriminate. cbn [bind] in H. destruct (getM _ _ _ i _); try discriminate. cbn [bind] in H.
    apply putM_keep in H. destruct H. split; congruence.
Qed.
Lemma exec1_nm c w w' : exec1 c w = Ok w' -> nm w' = nm w.
Proof.
  intros H. destruct c as [|? |i rel| | | | | | | | | | | | |]; try (apply (exec1_keep 0 _ _ _ H eq_refl)).
  cbn [Disk.exec1] in H. destruct (i <? nm w); [|discriminate]. injection H as <-. auto.
Qed.
Lemma texec_nm : forall p w w', texec p w = Ok w' -> nm w' = nm w.
Proof.
  induction p as [|c p IH]; intros w w' H; [injection H as <-; auto|]. cbn [Tdvp.texec] in H. destruct (texec1 c w) as [w1| |] eqn:X; try discriminate. cbn [bind] in H. rewrite (IH _ _ H).
  destruct c as [c| |]; [eapply exec1_nm; exact X|apply (texec1_keep 0 _ _ _ X eq_refl)|apply (texec1_keep 0 _ _ _ X eq_refl)].
Qed.
Lemma texec_keep j : forall p w w', texec p w = Ok w' -> dumps j p = 0 -> dm w' j = dm w j.
Proof.
  induction p as [|c p IH]; intros w w' H D; [injection H as <-; auto|]. cbn [Tdvp.texec] in H. cbn [dumps] in D. destruct (texec1 c w) as [w1| |] eqn:X; try discriminate. cbn [bind] in H.
  rewrite (IH _ _ H) by lia. apply (texec1_keep j _ _ _ X). lia.
Qed.
(** a prefix of a program in which the file of site j is written at most once *)
Lemma prefix_file j p q w w' : texec (p ++ q) w = Ok w' -> dumps j (p ++ q) <= 1 -> exists v, texec p w = Ok v /\ (dm v j = dm w j \/ dm v j = dm w' j).
Proof.
  intros H D. rewrite texec_app in H. destruct (texec p w) as [v| |] eqn:X; try discriminate. cbn [bind] in H. exists v. split; auto. rewrite dumps_app in D.
  destruct (Nat.eq_dec (dumps j p) 0) as [Z|Z]; [left; eapply texec_keep; eauto|right; symmetry; eapply texec_keep; eauto; lia].
Qed.

Lemma turn tau ts w : 3 <= N -> tready ts w -> exists w1,
  texec (map TB [NewEnvs (N - 1); LoadM 1] ++ flat_map (tstep_right N tau) (seq 0 (N - 2))) w = Ok w1 /\ forall j, j < N -> j <> N - 2 -> dm w1 j = Some (halfway tau ts j).
Proof.
  intros HN [S1 S2 S3 S4 S5].
  assert (LD : exists w0, exec [NewEnvs (N - 1); LoadM 1] w = Ok w0 /\ rpoint T E unit triv grow N ts 0 w0).
  { rewrite ex_NewEnvs. rewrite (ex_LoadM _ _ _ _ _ _ _ _ _ _ _ _ _ _ (ts 1)); [|cbn; lia|apply S3; lia]. eexists. split; [reflexivity|]. constructor; fs; auto.
    - intros j Hj. fcase; subst; auto; cbn in *; try lia; try (apply S2; auto).
    - intros n Hn. apply S4. lia.
    - intros n Hn. replace n with 0 by lia. auto.
    - intros j Hj. rewrite andb_false_r. auto. }
  destruct LD as (w0 & L1 & L2). rewrite (texec_Bs _ _ _ _ _ _ _ _ _ _ _ _ _ _ _ L1).
  destruct (trights_ok T E dT dE triv grow canoL canoR evo back dbg N tau (N - 2) 0 ts w0 []) as (w1 & A1 & A2 & _); auto. rewrite app_nil_r in A1. rewrite A1. exists w1. split; [reflexivity|].
  intros j Hj HJ. destruct A2 as [P1 P2 P3 P4 P5 P6 P7 P8]. rewrite P4; auto.
  - f_equal. unfold TdvpAgainSpec.halfway. rewrite subs_flat. erewrite flat_map_ext; [reflexivity|]. intros. apply subs_right.
  - unfold rmem. destruct (Nat.eqb_spec (N - 2) 0); lia.
Qed.
(** the process dies inside a sweep *)
Lemma died_in_sweep tau ts w p q : 3 <= N -> tready ts w -> tdvp_sweep N tau = p ++ q -> exists w' ts',
  texec p (set_mm T E unit fnone w) = Ok w' /\ idle ts' (crash w') /\ (forall j, j < N -> ts' j = ts j \/ ts' j = halfway tau ts j \/ ts' j = tau_step tau ts j).
Proof.
  intros HN HR HP. assert (HR' : tready ts (set_mm T E unit fnone w)) by (destruct HR; constructor; fs; auto; intros j Hj; reflexivity). clear HR. revert HR'. generalize (set_mm T E unit fnone w). clear w. intros w HR.
  destruct (tsweep_ok T E dT dE triv grow canoL canoR evo back dbg N tau ts w HN HR) as (we & A1 & [_ _ A2 _ _] & _). destruct (turn tau ts w HN HR) as (wm & B1 & B2). destruct HR as [R1 R2 R3 R4 R5].
  set (A := map TB [NewEnvs (N - 1); LoadM 1] ++ flat_map (tstep_right N tau) (seq 0 (N - 2))) in *.
  assert (SP : exists B, tdvp_sweep N tau = A ++ B /\ forall j, dumps j B <= 1).
  { unfold tdvp_sweep. eexists. unfold A. split; [rewrite <- app_assoc; reflexivity|]. intros j. rewrite !dumps_app, dumps_lefts. cbn [map dumps dump1].
    destruct (Nat.leb_spec 2 j), (Nat.ltb_spec j (2 + (N - 2))), (Nat.eqb_spec 0 j), (Nat.eqb_spec 1 j); cbn; lia. }
  destruct SP as (B & SP & DB). rewrite HP in SP.
  assert (DA : forall j, dumps j A = if j <? N - 2 then 1 else 0).
  { intros j. unfold A. rewrite dumps_app, dumps_rights. cbn. auto. }
  assert (FM : forall j, j < N -> dm wm j = Some (ts j) \/ dm wm j = Some (halfway tau ts j)).
  { intros j Hj. destruct (Nat.eq_dec j (N - 2)) as [Z|Z]; [|right; apply B2; auto]. left. rewrite (texec_keep j A w wm B1); [apply R3; auto|]. rewrite DA. destruct (Nat.ltb_spec j (N - 2)); lia. }
  assert (EP : exists w', texec p w = Ok w') by (rewrite HP, texec_app in A1; destruct (texec p w); try discriminate; eauto). destruct EP as [w' EP].
  assert (F : forall j, j < N -> dm w' j = Some (ts j) \/ dm w' j = Some (halfway tau ts j) \/ dm w' j = Some (tau_step tau ts j)).
  { intros j Hj. destruct (app_eq_app _ _ _ _ SP) as (l & [[E1 E2]|[E1 E2]]).
    - (* A = p' *) rewrite E1, texec_app, B1 in EP. cbn [bind] in EP. rewrite HP, E1, <- app_assoc, texec_app, B1 in A1. cbn [bind] in A1.
      destruct (prefix_file j l q wm we A1) as (v & V1 & [V2|V2]); [rewrite <- E2; apply DB| |]; rewrite EP in V1; injection V1 as <-; rewrite V2; [destruct (FM j Hj); auto|right; right; apply A2; auto].
    - rewrite E1 in B1. destruct (prefix_file j p l w wm B1) as (v & V1 & [V2|V2]); [rewrite <- E1, DA; destruct (j <? N - 2); lia| |]; rewrite EP in V1; injection V1 as <-; rewrite V2; [left; apply R3; auto|destruct (FM j Hj); auto]. }
  exists w', (fun j => orelse dT (dm w' j)). split; auto. split.
  - split; [cbn; rewrite (texec_nm _ _ _ EP); auto|]. split; [intros; reflexivity|]. intros j Hj. cbn. destruct (F j Hj) as [X|[X|X]]; rewrite X; auto.
  - intros j Hj. destruct (F j Hj) as [X|[X|X]]; rewrite X; auto.
Qed.

(** *** runs *)
Fixpoint sweeps_run (tau : Q) (n : nat) (w : world) : res world := match n with O => Ok w | S n => let! w := sweeps_run tau n w in sweep_run tau w end.
Lemma sweeps_ok tau n : forall ts w, 3 <= N -> tready ts w -> exists w', sweeps_run tau n w = Ok w' /\ tready (after tau n ts) w'.
Proof.
  induction n as [|n IH]; intros ts w HN HR; [exists w; auto|]. destruct (IH ts w HN HR) as (w1 & A1 & A2). destruct (sweep_run_ok T E dT dE triv grow canoL canoR evo back dbg N tau _ _ HN A2) as (w2 & B1 & B2 & _).
  exists w2. cbn [sweeps_run]. rewrite A1. cbn [bind TdvpSpec.after]. auto.
Qed.
Lemma e_times tau k : (e_time_of tau k == inject_Z (Z.of_nat k) * tau)%Q.
Proof. destruct k; cbn [e_time_of]; [|reflexivity]. change (inject_Z (Z.of_nat 0)) with 0%Q. ring. Qed.
Lemma run_records site steps tau ini t0 mf ts w : 3 <= N -> site < N -> idle ts w -> (match ini with Some f => forall i, i < N -> f i = Some (t0 i) | None => t0 = ts end) -> exists r w',
  tdvp_run true site steps tau ini mf w = Ok (r, w') /\ records site steps tau t0 (fun k => after tau k (begun site ts)) r /\ idle (after tau steps (begun site ts)) w'.
Proof.
  intros HN HS HI H0. destruct (run_ok T E M V dT dE dM triv grow canoL canoR evo back dbg actO actI mtr mtl mgr mgl mval phase N site steps tau ini t0 mf ts w HN HS HI H0) as (r & w' & A1 & A2 & A3 & A4).
  exists r, w'. split; auto. split; [|eapply tready_idle; exact A3]. split; auto. intros k i Hk Hi. cbn zeta. exists (e_time_of tau k). split; [apply e_times|]. rewrite A4 by auto. destruct k; reflexivity.
Qed.
Lemma crash_idle ts w : idle ts w -> idle ts (crash w).
Proof. intros (A & B & C). split; [|split]; auto. Qed.
(** the same call again, in the same or in a new process *)
Lemma second_run site steps steps2 tau mf mf2 ts w : 3 <= N -> site < N -> idle ts w -> exists r w1,
  tdvp_run true site steps tau None mf w = Ok (r, w1) /\ forall f, (forall i, i < N -> f i = Some (ts i)) -> forall v, v = w1 \/ v = crash w1 -> exists r2 w2,
  tdvp_run true site steps2 tau (Some f) mf2 v = Ok (r2, w2) /\ records site steps2 tau ts (fun k => after tau k (begun site (after tau steps (begun site ts)))) r2.
Proof.
  intros HN HS HI. destruct (run_records site steps tau None ts mf ts w HN HS HI eq_refl) as (r & w1 & A1 & _ & A3). exists r, w1. split; auto. intros f HF v HV.
  destruct (run_records site steps2 tau (Some f) ts mf2 (after tau steps (begun site ts)) v HN HS) as (r2 & w2 & B1 & B2 & _); [destruct HV; subst; auto; apply crash_idle; auto|auto|]. eauto.
Qed.
(** the process dies in the time step after [n] complete ones *)
Lemma died_run site n tau p q ts w : 3 <= N -> site < N -> idle ts w -> tdvp_sweep N tau = p ++ q -> exists w1 f w2 w3 ts',
  init_state true site None w = Ok (w1, f) /\ (forall i, i < N -> f i = Some (ts i)) /\ sweeps_run tau n w1 = Ok w2 /\ texec p (set_mm T E unit fnone w2) = Ok w3 /\
  (forall j, j < N -> ts' j = after tau n (begun site ts) j \/ ts' j = halfway tau (after tau n (begun site ts)) j \/ ts' j = after tau (S n) (begun site ts) j) /\
  idle ts' (crash w3) /\
  forall steps tau2 mf, exists r w4, tdvp_run true site steps tau2 (Some f) mf (crash w3) = Ok (r, w4) /\ records site steps tau2 ts (fun k => after tau2 k (begun site ts')) r.
Proof.
  intros HN HS HI HP. destruct (init_state_ok T E dT dE triv grow canoL canoR dbg actO actI N true site None ts w ltac:(lia) HS HI) as (w1 & f & A1 & A2 & A3).
  destruct (sweeps_ok tau n _ w1 HN A2) as (w2 & B1 & B2). destruct (died_in_sweep tau _ w2 p q HN B2 HP) as (w3 & ts' & C1 & C2 & C3).
  exists w1, f, w2, w3, ts'. repeat (split; auto). intros steps tau2 mf. destruct (run_records site steps tau2 (Some f) ts mf ts' (crash w3) HN HS C2 A3) as (r & w4 & D1 & D2 & _). eauto.
Qed.
(** the process dies while the operator is being applied *)
Lemma partly_ok g : forall m site ts w, m <= site -> site < N -> idle ts w -> exists w' ts', for_each (rev (seq (site - m) m)) (act1 g) w = Ok w' /\ idle ts' w' /\
  (forall j, ts' j = if (site - m <=? j) && (j <? site) then g (ts j) else ts j).
Proof.
  induction m as [|m IH]; intros site ts w Hm HS HI.
  - exists w, ts. split; auto. split; auto. intros j. destruct (Nat.leb_spec (site - 0) j), (Nat.ltb_spec j site); cbn; auto; lia.
  - rewrite seq_S, rev_unit. replace (site - S m + m) with (site - 1) by lia. cbn [for_each].
    destruct (act1_ok T E dT dE triv grow canoL canoR dbg N g (site - 1) ts w ltac:(lia) HI) as (w1 & A1 & A2 & _). rewrite A1. cbn [bind].
    replace (site - S m) with (site - 1 - m) by lia. destruct (IH (site - 1) _ w1 ltac:(lia) ltac:(lia) A2) as (w2 & ts2 & B1 & B2 & B3). exists w2, ts2. split; auto. split; auto.
    intros j. rewrite B3. unfold fset. destruct (Nat.leb_spec (site - 1 - m) j), (Nat.ltb_spec j (site - 1)), (Nat.ltb_spec j site), (Nat.eqb_spec j (site - 1)); cbn; auto; try lia; subst; auto.
Qed.
Lemma died_acting site m f ts w : 3 <= N -> m <= site -> site < N -> idle ts w -> (forall i, i < N -> f i = Some (ts i)) -> exists w1 w2,
  act1 actO site w = Ok w1 /\ (match actI with Some g => for_each (rev (seq (site - m) m)) (act1 g) w1 | None => Ok w1 end) = Ok w2 /\
  forall steps tau mf, exists r w3, tdvp_run true site steps tau (Some f) mf (crash w2) = Ok (r, w3) /\ records site steps tau ts (fun k => after tau k (begun site (partly site m ts))) r.
Proof.
  intros HN Hm HS HI HF. destruct (act1_ok T E dT dE triv grow canoL canoR dbg N actO site ts w HS HI) as (w1 & A1 & A2 & _). exists w1.
  assert (X : exists w2 ts2, (match actI with Some g => for_each (rev (seq (site - m) m)) (act1 g) w1 | None => Ok w1 end) = Ok w2 /\ idle ts2 w2 /\ forall j, j < N -> ts2 j = partly site m ts j).
  { unfold TdvpAgainSpec.partly. destruct actI as [g|].
    - destruct (partly_ok g m site _ w1 Hm HS A2) as (w2 & ts2 & B1 & B2 & B3). exists w2, ts2. split; auto. split; auto. intros j _. rewrite B3. unfold fset.
      destruct (Nat.eqb_spec j site), (Nat.leb_spec (site - m) j), (Nat.ltb_spec j site); cbn; auto; subst; auto; lia.
    - exists w1, (fset ts site (actO (ts site))). split; auto. split; auto. intros j _. unfold fset. destruct (Nat.eqb_spec j site); subst; auto. destruct (_ && _); auto. }
  destruct X as (w2 & ts2 & B1 & B2 & B3). exists w2. split; auto. split; auto. intros steps tau mf.
  assert (HI2 : idle (partly site m ts) (crash w2)) by (apply crash_idle; eapply idle_ext; [exact B3|exact B2]).
  destruct (run_records site steps tau (Some f) ts mf _ _ HN HS HI2 HF) as (r & w3 & C1 & C2 & _). eauto.
Qed.
(** the process dies while the initial state is being copied *)
Lemma died_copying site f ts w : 3 <= N -> site < N -> idle ts w -> f (N - 1) = None ->
  (exists w1, init_state true site (Some f) w = Ok (w1, f) /\ idle (begun site ts) w1) /\ forall steps tau mf, tdvp_run true site steps tau (Some f) mf w = Abort.
Proof.
  intros HN HS HI HF. destruct (init_state_ok T E dT dE triv grow canoL canoR dbg actO actI N true site (Some f) ts w ltac:(lia) HS HI) as (w1 & f2 & A1 & A2 & ->).
  split; [exists w1; split; auto; eapply tready_idle; exact A2|]. intros steps tau mf. unfold Tdvp.tdvp_run. rewrite A1. cbn [bind]. destruct HI as (HM & _). rewrite HM.
  unfold overlap, overlap_prog. cbn [app mexec mexec1]. replace (N - 1 <? N) with true by (symmetry; apply Nat.ltb_lt; lia). rewrite HF. destruct (dm w1 (N - 1)); reflexivity.
Qed.
End Run.
