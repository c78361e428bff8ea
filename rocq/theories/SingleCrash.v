(** Memory bound and crash points of the single-site run. *)
From Coq Require Import List Arith Lia Bool.
From Verif Require Import Base Disk SweepSpec DiskFacts TwoSite TwoSiteFacts TwoSiteCrash SweepInst SingleSite SingleSpec SingleFacts.
Import ListNotations.

Definition socc (c : sinstr) (o : list nat) : list nat := match c with B1 c => occ c o | U1 _ i nn => add nn (add i o) | St1 _ => o end.
Fixpoint soccs (p : list sinstr) (o : list nat) : list (list nat) := o :: match p with [] => [] | c :: q => soccs q (socc c o) end.
Definition socc_end (p : list sinstr) (o : list nat) : list nat := fold_left (fun o c => socc c o) p o.
Notation small := (Forall (fun x : list nat => length x <= 2)).
Lemma soccs_app : forall p q o, small (soccs p o) -> small (soccs q (socc_end p o)) -> small (soccs (p ++ q) o).
Proof. induction p as [|c p IH]; intros q o H1 H2; [exact H2|]. cbn [soccs app] in *. inversion H1 as [|? ? A B]. constructor; auto. Qed.
Lemma soccs_prefix : forall p q o, small (soccs (p ++ q) o) -> length (socc_end p o) <= 2.
Proof. induction p as [|c p IH]; intros q o H; [destruct q; exact (Forall_inv H)|]. apply Forall_inv_tail in H. exact (IH q (socc c o) H). Qed.
Lemma socc_end_app : forall p q o, socc_end (p ++ q) o = socc_end q (socc_end p o).
Proof. intros. unfold socc_end. apply fold_left_app. Qed.
Lemma soccs_B : forall p o, soccs (map B1 p) o = occs p o.
Proof. induction p as [|c p IH]; intros o; cbn [map soccs occs socc]; auto. f_equal. apply IH. Qed.
Lemma socc_end_B : forall p o, socc_end (map B1 p) o = occ_end p o.
Proof. induction p as [|c p IH]; intros o; auto. exact (IH (occ c o)). Qed.
Ltac orun := cbn [app soccs socc_end fold_left socc occ]; unfold socc_end; cbn [app soccs fold_left socc occ map];
  repeat (exb; unfold del; cbn [filter negb]; eqb_dec; cbn [filter negb]).
Lemma socc_right : forall N i, small (soccs (step_right1 N i) [i]) /\ socc_end (step_right1 N i) [i] = [S i].
Proof.
  intros N i. replace (S i) with (i + 1) by lia. unfold step_right1, load_right1, dump_right1. destruct (i =? 0); cbn [map app]; split; orun; auto; repeat (constructor; [simpl; lia|]); constructor.
Qed.
Lemma socc_left : forall N i, 0 < i -> small (soccs (step_left1 N i) [i]) /\ socc_end (step_left1 N i) [i] = [i - 1].
Proof.
  intros N i H. unfold step_left1, load_left1, dump_left1. destruct (i =? N - 1); cbn [map app]; split; orun; auto; repeat (constructor; [simpl; lia|]); constructor.
Qed.
Lemma socc_rights : forall N k i, small (soccs (flat_map (step_right1 N) (seq i k)) [i]) /\ socc_end (flat_map (step_right1 N) (seq i k)) [i] = [i + k].
Proof.
  induction k as [|k IH]; intros i; cbn [seq flat_map].
  - rewrite Nat.add_0_r. cbn. repeat constructor.
  - destruct (socc_right N i) as [A1 A2]. destruct (IH (S i)) as [C1 C2]. split; [apply soccs_app; auto; rewrite A2; auto|]. rewrite socc_end_app, A2, C2. f_equal. lia.
Qed.
Lemma socc_lefts : forall N k, small (soccs (flat_map (step_left1 N) (rev (seq 1 k))) [k]) /\ socc_end (flat_map (step_left1 N) (rev (seq 1 k))) [k] = [0].
Proof.
  induction k as [|k [C1 C2]]; [cbn; repeat constructor|].
  rewrite seq_S, rev_unit. cbn [flat_map]. replace (1 + k) with (S k) by lia. destruct (socc_left N (S k)) as [A1 A2]; [lia|]. replace (S k - 1) with k in A2 by lia.
  split; [apply soccs_app; auto; rewrite A2; auto|]. rewrite socc_end_app, A2. auto.
Qed.
Lemma socc_sweep : forall N k, 1 <= N -> small (soccs (sweep1 N k) [0]) /\ socc_end (sweep1 N k) [0] = [0].
Proof.
  intros N k HN. unfold sweep1. destruct (socc_rights N (N - 1) 0) as [A1 A2]. destruct (socc_lefts N (N - 1)) as [C1 C2]. cbn [Nat.add] in A2. split.
  - cbn [app soccs socc occ]. do 2 (constructor; [simpl; lia|]). apply soccs_app; auto. rewrite A2. auto.
  - cbn [app]. unfold socc_end. cbn [fold_left socc occ]. fold (socc_end (flat_map (step_right1 N) (seq 0 (N - 1)) ++ flat_map (step_left1 N) (rev (seq 1 (N - 1)))) [0]).
    rewrite socc_end_app, A2. auto.
Qed.
Lemma socc_sweeps : forall N n k, 1 <= N -> small (soccs (flat_map (sweep1 N) (seq k n)) [0]) /\ socc_end (flat_map (sweep1 N) (seq k n)) [0] = [0].
Proof.
  intros N n k HN. revert k. induction n as [|n IH]; intros k; cbn [seq flat_map]; [cbn; repeat constructor|]. destruct (socc_sweep N k HN) as [A1 A2]. destruct (IH (S k)) as [C1 C2].
  split; [apply soccs_app; auto; rewrite A2; auto|]. rewrite socc_end_app, A2. auto.
Qed.
Lemma socc_single : forall N k have, 2 <= N -> small (soccs (single_site N k have) []).
Proof.
  intros N k have HN. unfold single_site, prelude1. destruct (socc_sweeps N k 0) as [A1 A2]; [lia|]. destruct (occ_init N 1) as [I1 I2]; [lia|]. rewrite map_app, <- app_assoc.
  assert (F : small (soccs (map B1 [LoadM 0] ++ flat_map (sweep1 N) (seq 0 k) ++ [B1 (DumpM 0 true)]) [])).
  { cbn [map app soccs socc occ add existsb]. constructor; [simpl; lia|]. apply soccs_app; auto. rewrite A2. cbn. repeat constructor. }
  destruct have; [exact F|]. apply soccs_app.
  - rewrite soccs_B. constructor; [simpl; lia|exact I1].
  - rewrite socc_end_B. change (occ_end (Mkdir :: init_envs N 1) []) with (occ_end (init_envs N 1) []). rewrite I2. exact F.
Qed.

Section Facts.
Variables T E St : Type.
Variables (dT : T) (dE : E) (triv : side -> E) (grow : side -> nat -> E -> T -> E).
Variables (canoL canoR : T -> T -> T * T).
Variable solve1 : bool -> nat -> E -> T -> E -> T -> St -> T * T * St.
Variable noises : list St.
Variable zero : St.
Variable carry : St -> St.
Variable solve2 : bool -> nat -> E -> T -> T -> E -> T * T * St.
Variable dbg : bool.
Notation world := (world T E St).
Notation exec := (exec T E St dT dE triv grow solve2 canoL canoR dbg).
Notation sexec := (sexec T E St dT dE triv grow canoL canoR solve1 noises zero carry solve2 dbg).
Notation sexec1 := (sexec1 T E St dT dE triv grow canoL canoR solve1 noises zero carry solve2 dbg).
Notation nm := (nm T E St). Notation mm := (mm T E St). Notation ne := (ne T E St). Notation dm := (dm T E St).
Notation le := (le T E St). Notation re := (re T E St). Notation dl := (dl T E St). Notation dr := (dr T E St).
Notation eng := (eng T E St). Notation acc := (acc T E St). Notation tmp := (tmp T E St).
Notation de_ := (de_ T E St).
Notation covers := (covers T E St).
Notation disk_kept := (disk_kept T E St).

(** what an update of the center touches *)
Lemma u1_inv : forall rt i nn w w', sexec1 (U1 rt i nn) w = Ok w' -> exists a b, mm w' = fset (fset (mm w) i (Some a)) nn (Some b) /\
  dm w' = dm w /\ dl w' = dl w /\ dr w' = dr w /\ nm w' = nm w /\ tmp w' = tmp w.
Proof.
  intros rt i nn w w' H. cbn [SingleSite.sexec1] in H.
  destruct (getE T E St L i w) as [el| |]; cbn [bind] in H; try discriminate. destruct (getE T E St R (nm w - i - 1) w) as [er| |]; cbn [bind] in H; try discriminate.
  destruct (getM T E St i w) as [a| |]; cbn [bind] in H; try discriminate. destruct (getM T E St nn w) as [b| |]; cbn [bind] in H; try discriminate.
  destruct (use (eng w)) as [s| |]; cbn [bind] in H; try discriminate. destruct (solve1 rt i el a er b s) as [[a' b'] s'].
  unfold putM in H. destruct (i <? nm w); cbn [bind] in H; try discriminate. cbn [set_mm Disk.nm] in H. destruct (nn <? nm w); cbn [bind] in H; try discriminate.
  exists a', b'. unfold putE in H. destruct rt; cbn [set_mm Disk.ne] in H; match type of H with context [if ?c then _ else _] => destruct c end; cbn [bind] in H; try discriminate; injection H as <-; repeat split; auto.
Qed.
Lemma socc_ok : forall c o w w', sexec1 c w = Ok w' -> covers o w -> covers (socc c o) w'.
Proof.
  intros c o w w' H HC. destruct c as [c|rt i nn|k].
  - cbn [SingleSite.sexec1 socc] in *. eapply occ_ok; eauto.
  - destruct (u1_inv _ _ _ _ _ H) as [a [b [M _]]]. cbn [socc]. eapply covers_set; [exact M|]. intros j y HJ. unfold fset in HJ. apply add_in. destruct (Nat.eqb_spec j i); [auto|]. right. exact (HC _ _ HJ).
  - cbn [SingleSite.sexec1 socc] in *. injection H as <-. exact HC.
Qed.
Lemma socc_end_ok : forall p o w w', sexec p w = Ok w' -> covers o w -> covers (socc_end p o) w'.
Proof.
  induction p as [|c p IH]; intros o w w' H HC; cbn [SingleSite.sexec] in H; [injection H as <-; exact HC|]. destruct (sexec1 c w) as [w1| |] eqn:E1; cbn [bind] in H; try discriminate.
  apply (IH (socc c o) w1); auto. eapply socc_ok; eauto.
Qed.
Lemma peak1_ok : forall N k have p q w w', 2 <= N -> single_site N k have = p ++ q -> (forall i, mm w i = None) -> sexec p w = Ok w' ->
  exists a b, forall i t, mm w' i = Some t -> i = a \/ i = b.
Proof.
  intros N k have p q w w' HN HP HM HE. pose proof (socc_single N k have HN) as HO. rewrite HP in HO. apply soccs_prefix in HO.
  assert (HC : covers (socc_end p []) w') by (eapply socc_end_ok; [exact HE|]; intros i t; rewrite HM; discriminate).
  destruct (socc_end p []) as [|a [|b [|? ?]]]; simpl in HO; try lia.
  - exists 0, 0. intros i t Hi. destruct (HC i t Hi).
  - exists a, a. intros i t Hi. destruct (HC i t Hi) as [->|[]]. auto.
  - exists a, b. intros i t Hi. destruct (HC i t Hi) as [->|[->|[]]]; auto.
Qed.

Lemma sexec_prefix : forall p q w w', sexec (p ++ q) w = Ok w' -> exists w1, sexec p w = Ok w1 /\ sexec q w1 = Ok w'.
Proof. intros p q w w' H. rewrite sexec_app in H. destruct (sexec p w) as [w1| |]; cbn in H; try discriminate. eauto. Qed.
Definition skeeps (s : side) (n : nat) (c : sinstr) : Prop := match c with B1 c => keeps_absent s n c | _ => True end.
Lemma sabsent : forall s n p w w', Forall (skeeps s n) p -> sexec p w = Ok w' -> de_ s w n = None -> de_ s w' n = None.
Proof.
  induction p as [|c p IH]; intros w w' HF H HA; cbn [SingleSite.sexec] in H; [injection H as <-; auto|]. destruct (sexec1 c w) as [w1| |] eqn:E1; cbn [bind] in H; try discriminate.
  apply (IH w1); auto; [exact (Forall_inv_tail HF)|]. apply Forall_inv in HF. destruct c as [c|rt i nn|k].
  - cbn [SingleSite.sexec1 skeeps] in *. eapply absent1; eauto.
  - destruct (u1_inv _ _ _ _ _ E1) as [a [b [_ [_ [D1 [D2 _]]]]]]. destruct s; cbn in *; congruence.
  - cbn [SingleSite.sexec1] in E1. injection E1 as <-. destruct s; exact HA.
Qed.
Lemma skept : forall p w w', sexec p w = Ok w' -> disk_kept w w'.
Proof.
  induction p as [|c p IH]; intros w w' H; cbn [SingleSite.sexec] in H; [injection H as <-; repeat split; auto|]. destruct (sexec1 c w) as [w1| |] eqn:E1; cbn [bind] in H; try discriminate.
  assert (K : disk_kept w w1).
  { destruct c as [c|rt i nn|k].
    - cbn [SingleSite.sexec1] in E1. eapply kept1; eauto.
    - destruct (u1_inv _ _ _ _ _ E1) as [a [b [_ [D0 [D1 [D2 [D3 D4]]]]]]]. split; [congruence|]. split; congruence.
    - cbn [SingleSite.sexec1] in E1. injection E1 as <-. repeat split; auto. }
  destruct K as [A1 [A2 A3]]. destruct (IH _ _ H) as [C1 [C2 C3]]. split; [congruence|]. split; auto.
Qed.
Variable N : nat.
Notation startable1 := (startable1 T E St triv grow N).
Notation run := (run_single T E St dT dE triv grow canoL canoR solve1 noises zero carry solve2 dbg).
Notation preset1 := (preset1 St noises zero).
Notation sweeps1 := (sweeps1 T E St triv grow solve1 N preset1 carry).
Lemma restart1_fails : forall k w, 2 <= N -> nm w = N -> tmp w = true -> dm w 0 <> None -> dm w 1 <> None -> dr w (N - 1) = None \/ dl w 0 = None ->
  run (S k) (crash T E St w) = Abort.
Proof.
  intros k w HN H1 H2 H3 H4 H5. unfold run_single. cbn [crash Disk.nm Disk.tmp]. rewrite H1, H2. unfold single_site.
  destruct (dm w 1) as [t1|] eqn:D1; [|congruence]. destruct (dm w 0) as [t0|] eqn:D0; [|congruence]. cbn [seq flat_map]. unfold sweep1 at 1.
  destruct (N - 1) as [|m] eqn:EN; [lia|]. cbn [seq flat_map]. unfold step_right1 at 1, load_right1. rewrite Nat.eqb_refl. rewrite <- !app_assoc.
  unfold prelude1. cbn [app].
  assert (L0 : exec [LoadM 0] (set_eng T E St None (crash T E St w)) = Ok (set_mm T E St (fset fnone 0 (Some t0)) (set_eng T E St None (crash T E St w)))).
  { rewrite (ex_LoadM _ _ _ _ _ _ _ _ _ _ _ _ _ _ t0); [reflexivity|cbn; lia|exact D0]. }
  rewrite (sexec_Bs _ _ _ _ _ _ _ _ _ _ _ _ _ _ _ _ _ _ _ L0). clear L0.
  cbn [SingleSite.sexec SingleSite.sexec1 bind Disk.exec1]. match goal with |- context [sexec _ ?x] => set (w1 := x) end.
  assert (AB : exec [LoadM (0 + 1); LoadE R (N - 0 - 1); RmE R (N - 0 - 1); LoadE L 0] w1 = Abort).
  { rewrite (ex_LoadM _ _ _ _ _ _ _ _ _ _ _ _ _ _ t1); [|cbn; lia|exact D1]. replace (N - 0 - 1) with (S m) by lia.
    destruct (dr w (S m)) as [er|] eqn:DR.
    - rewrite (ex_LoadE _ _ _ _ _ _ _ _ _ _ _ _ _ _ _ er); [|cbn; lia|exact DR]. rewrite ex_RmE. destruct H5 as [H5|H5]; [discriminate|].
      cbn [Disk.exec]. cbn [Disk.exec1]. rewrite ltb_t by (cbn; lia). cbn [Disk.de_ set_de set_e set_mm set_eng Disk.dl crash w1]. cbn. rewrite H5. reflexivity.
    - cbn [Disk.exec]. cbn [Disk.exec1]. rewrite ltb_t by (cbn; lia). cbn. rewrite DR. reflexivity. }
  rewrite sexec_app, sexec_B, AB. reflexivity.
Qed.
Ltac sk := repeat first [apply Forall_nil | apply Forall_cons; [first [exact I | left; discriminate | right; lia]|]].
Lemma sweep1_head : forall k, 2 <= N -> exists M, sweep1 N k = [St1 k; B1 (NewEnvs N); B1 (LoadM 1); B1 (LoadE R (N - 1)); B1 (RmE R (N - 1))] ++ M ++ [B1 (DumpE R (N - 1))] /\ Forall (skeeps R (N - 1)) M.
Proof.
  intros k HN. unfold sweep1.
  replace (flat_map (step_right1 N) (seq 0 (N - 1))) with (step_right1 N 0 ++ flat_map (step_right1 N) (seq 1 (N - 2))) by (replace (N - 1) with (S (N - 2)) by lia; reflexivity).
  replace (flat_map (step_left1 N) (rev (seq 1 (N - 1)))) with (flat_map (step_left1 N) (rev (seq 2 (N - 2))) ++ step_left1 N 1)
    by (replace (N - 1) with (S (N - 2)) by lia; change (rev (seq 1 (S (N - 2)))) with (rev (seq 2 (N - 2)) ++ [1]); rewrite flat_map_app; cbn [flat_map]; rewrite app_nil_r; reflexivity).
  unfold step_right1 at 1, load_right1. rewrite Nat.eqb_refl. replace (N - 0 - 1) with (N - 1) by lia. cbn [Nat.add app map].
  exists ([B1 (LoadE L 0)] ++ [U1 true 0 1] ++ map B1 (dump_right1 N 0) ++ flat_map (step_right1 N) (seq 1 (N - 2)) ++ flat_map (step_left1 N) (rev (seq 2 (N - 2))) ++
    map B1 (load_left1 N 1) ++ [U1 false 1 0] ++ map B1 [FreeE L 1; FreeE R (N - 1 - 1); DumpM 1 true]). split.
  - cbn [app]. do 5 f_equal. unfold step_left1 at 2, dump_left1. rewrite <- !app_assoc. cbn [app map Nat.sub]. reflexivity.
  - assert (RG : forall l, Forall (skeeps R (N - 1)) (flat_map (step_right1 N) l)).
    { induction l as [|i l IH]; cbn [flat_map]; [constructor|]. apply Forall_app. split; auto. unfold step_right1, load_right1, dump_right1. destruct (i =? 0); cbn [app map]; sk. }
    assert (LG : forall l, (forall i, In i l -> 1 < i < N) -> Forall (skeeps R (N - 1)) (flat_map (step_left1 N) l)).
    { induction l as [|i l IH]; intros HI; cbn [flat_map]; [constructor|]. apply Forall_app. split; [|apply IH; intros; apply HI; simpl; auto]. pose proof (HI i (or_introl eq_refl)).
      unfold step_left1, load_left1, dump_left1. destruct (i =? N - 1); cbn [app map]; sk. }
    cbn [app]. sk. apply Forall_app. split; [apply (RG (seq 1 (N - 2)))|]. apply Forall_app. split.
    + apply LG. intros i Hi. apply in_rev, in_seq in Hi. lia.
    + apply Forall_app. split; [unfold load_left1; destruct (1 =? N - 1); cbn [map]; sk|cbn [map app]; sk].
Qed.
(** the program up to the end of sweep j *)
Definition upto (have : bool) (j : nat) : list sinstr := map B1 (prelude1 N have) ++ flat_map (sweep1 N) (seq 0 j).
Lemma after_sweeps1 : forall ts w j, 2 <= N -> startable1 ts w -> exists w', sexec (upto (tmp w) j) (set_eng T E St None w) = Ok w' /\
  spoint1 T E St triv grow N (fst (sweeps1 j 0 (ts, None))) w' /\ tmp w' = true /\ eng w' = snd (sweeps1 j 0 (ts, None)) /\ (j <> 0 -> eng w' <> None).
Proof.
  intros ts w j HN HS. destruct (prelude1_ok T E St dT dE triv grow canoL canoR solve2 dbg N ts w HN HS) as [w1 [A1 [A2 [A3 A4]]]]. unfold upto.
  rewrite (sexec_Bs _ _ _ _ _ _ _ _ _ _ _ _ _ _ _ _ _ _ _ A1).
  destruct (sweeps1_ok T E St dT dE triv grow canoL canoR solve1 noises zero carry solve2 dbg N j 0 ts w1 [] HN A2 (or_introl (preset_first _ noises zero))) as [w2 [C1 [C2 [C3 [C4 C5]]]]].
  rewrite app_nil_r in C1. exists w2. rewrite C1. rewrite A3 in C2, C3. split; auto. split; auto. split; [congruence|]. split; auto.
Qed.
Lemma begin1_some : forall j (s : option St), (j <> 0 -> s <> None) -> exists x, begin1 St preset1 carry j s = Some x.
Proof.
  intros j s H. unfold begin1. destruct (preset1 j) eqn:EP; [eauto|]. destruct j as [|j]; [exfalso; exact (preset_first _ noises zero EP)|].
  destruct s; [cbn; eauto|]. exfalso. apply H; auto.
Qed.
(** crash inside a sweep, after the first environment file was removed: the next run always throws *)
Theorem crash_in_sweep1 : forall ts w j p q k, 2 <= N -> startable1 ts w -> sweep1 N j = p ++ q -> 5 <= length p -> q <> [] ->
  exists w', sexec (upto (tmp w) j ++ p) (set_eng T E St None w) = Ok w' /\ run (S k) (crash T E St w') = Abort.
Proof.
  intros ts w j p q k HN HS HP HL HQ. destruct (after_sweeps1 ts w j HN HS) as [w1 [A1 [A2 [A3 [A4 A5]]]]].
  rewrite (sexec_app_ok _ _ _ _ _ _ _ _ _ _ _ _ _ _ _ _ _ _ _ A1). destruct (begin1_some j (eng w1) A5) as [x HX].
  destruct (sweep1_ok T E St dT dE triv grow canoL canoR solve1 noises zero carry solve2 dbg N j _ x w1 [] HN A2 HX) as [w2 [C1 _]]. rewrite app_nil_r, HP in C1. change (sexec [] w2) with (Ok w2) in C1.
  destruct (sexec_prefix p q w1 w2 C1) as [w3 [D1 D2]]. exists w3. split; auto.
  destruct (skept _ _ _ D1) as [K1 [K2 K3]]. destruct A2 as [P1 P2 P3 P4 P5].
  apply restart1_fails; auto; try congruence.
  - apply K3. destruct (skept _ _ _ A1) as [_ [_ K]]. apply K. destruct HS as [_ [_ [HD _]]]. cbn. rewrite HD by lia. discriminate.
  - apply K3. rewrite P3 by lia. discriminate.
  - left. destruct (sweep1_head j HN) as [M [S1 S2]]. rewrite S1 in HP.
    assert (PM : exists M1 M2, p = [St1 j; B1 (NewEnvs N); B1 (LoadM 1); B1 (LoadE R (N - 1)); B1 (RmE R (N - 1))] ++ M1 /\ M = M1 ++ M2).
    { do 5 (destruct p as [|? p]; [simpl in HL; lia|]). cbn [app] in HP. injection HP as <- <- <- <- <- HP. destruct (exists_last HQ) as [q' [z ->]]. rewrite app_assoc in HP. apply app_inj_tail in HP. destruct HP as [HP _]. exists p, q'. auto. }
    destruct PM as [M1 [M2 [-> ->]]]. apply Forall_app in S2. destruct S2 as [S2 _].
    change ([St1 j; B1 (NewEnvs N); B1 (LoadM 1); B1 (LoadE R (N - 1)); B1 (RmE R (N - 1))] ++ M1) with ([St1 j; B1 (NewEnvs N); B1 (LoadM 1); B1 (LoadE R (N - 1))] ++ B1 (RmE R (N - 1)) :: M1) in D1.
    destruct (sexec_prefix _ _ _ _ D1) as [w4 [F1 F2]]. cbn [SingleSite.sexec SingleSite.sexec1 Disk.exec1 bind] in F2.
    apply (sabsent R (N - 1) M1 _ w3 S2 F2). cbn. rewrite fset_same. auto.
Qed.
(** crash between sweeps (before the next removal): the next run starts from a chain whose site 0 is an old version *)
Theorem crash_between_sweeps1 : forall ts w j p q, 2 <= N -> startable1 ts w -> sweep1 N j = p ++ q -> length p < 5 ->
  exists w' t0, sexec (upto (tmp w) j ++ p) (set_eng T E St None w) = Ok w' /\ dm w' 0 = Some t0 /\
    startable1 (fset (fst (sweeps1 j 0 (ts, None))) 0 t0) (crash T E St w').
Proof.
  intros ts w j p q HN HS HP HL. destruct (after_sweeps1 ts w j HN HS) as [w1 [A1 [A2 [A3 [A4 A5]]]]].
  rewrite (sexec_app_ok _ _ _ _ _ _ _ _ _ _ _ _ _ _ _ _ _ _ _ A1). destruct (begin1_some j (eng w1) A5) as [x HX].
  destruct (sweep1_ok T E St dT dE triv grow canoL canoR solve1 noises zero carry solve2 dbg N j _ x w1 [] HN A2 HX) as [w2 [C1 _]]. rewrite app_nil_r, HP in C1. change (sexec [] w2) with (Ok w2) in C1.
  destruct (sexec_prefix p q w1 w2 C1) as [w3 [D1 D2]]. exists w3.
  assert (SAME : dm w3 = dm w1 /\ dl w3 = dl w1 /\ dr w3 = dr w1 /\ nm w3 = nm w1 /\ tmp w3 = tmp w1).
  { destruct (sweep1_head j HN) as [M [S1 _]]. rewrite S1 in HP. cbn [app] in HP.
    set (rd := fun c => (exists k, c = St1 k) \/ (exists n, c = B1 (NewEnvs n)) \/ (exists i, c = B1 (LoadM i)) \/ (exists s n, c = B1 (LoadE s n))).
    assert (G1 : forall c v v', sexec1 c v = Ok v' -> rd c -> dm v' = dm v /\ dl v' = dl v /\ dr v' = dr v /\ nm v' = nm v /\ tmp v' = tmp v).
    { intros c v v' H [[k ->]|[[n ->]|[[i ->]|[s [n ->]]]]]; cbn [SingleSite.sexec1 Disk.exec1] in H; dstr H; subst v'; try destruct s; auto. }
    assert (G : forall l v v', sexec l v = Ok v' -> Forall rd l -> dm v' = dm v /\ dl v' = dl v /\ dr v' = dr v /\ nm v' = nm v /\ tmp v' = tmp v).
    { induction l as [|c l IH]; intros v v' H HF; cbn [SingleSite.sexec] in H; [injection H as <-; auto|]. destruct (sexec1 c v) as [v1| |] eqn:E1; cbn [bind] in H; try discriminate.
      destruct (G1 _ _ _ E1 (Forall_inv HF)) as [X1 [X2 [X3 [X4 X5]]]]. destruct (IH _ _ H (Forall_inv_tail HF)) as [Y1 [Y2 [Y3 [Y4 Y5]]]]. repeat split; congruence. }
    apply (G p w1 w3 D1). unfold rd. destruct p as [|c1 [|c2 [|c3 [|c4 [|c5 p]]]]]; simpl in HL; try lia; cbn [app] in HP;
      [constructor|injection HP as <- HP|injection HP as <- <- HP|injection HP as <- <- <- HP|injection HP as <- <- <- <- HP]; repeat (constructor; [eauto 8|]); constructor. }
  destruct SAME as [M1 [M2 [M3 [M4 M5]]]]. destruct A2 as [P1 P2 P3 P4 P5].
  assert (D0 : dm w1 0 <> None). { destruct (skept _ _ _ A1) as [_ [_ K]]. apply K. destruct HS as [_ [_ [HD _]]]. cbn. rewrite HD by lia. discriminate. }
  destruct (dm w1 0) as [t0|] eqn:DE; [|congruence]. exists t0. split; auto. split; [congruence|]. split; [cbn; congruence|]. split; [intros i Hi; reflexivity|]. split.
  - intros i Hi. cbn. rewrite M1. fcase; [subst; auto|]. apply P3; auto.
  - intros _. split; [|cbn; congruence]. intros n Hn. cbn. rewrite M3, P4 by auto. f_equal. apply right_env_ext; [lia|]. intros i Hi. fs. auto.
Qed.
(** crash while the first run is still creating the environments *)
Theorem crash_in_init1 : forall ts w p q k, 2 <= N -> startable1 ts w -> tmp w = false -> dl w 0 = None -> Mkdir :: init_envs N 1 = p ++ q -> 1 <= length p -> 3 <= length q ->
  exists w', sexec (map B1 p) (set_eng T E St None w) = Ok w' /\ run (S k) (crash T E St w') = Abort.
Proof.
  intros ts w p q k HN HS HT HD HP HL HQ. destruct (prelude1_ok T E St dT dE triv grow canoL canoR solve2 dbg N ts w HN HS) as [w1 [A1 _]]. rewrite HT in A1. unfold prelude1 in A1. rewrite HP in A1.
  rewrite <- app_assoc in A1. destruct (exec_prefix _ _ _ _ _ _ _ _ _ _ _ _ _ _ _ A1) as [w2 [C1 C2]]. exists w2. rewrite sexec_B. split; auto.
  destruct (kept_all _ _ _ _ _ _ _ _ _ _ _ _ _ _ C1) as [K1 [K2 K3]]. destruct HS as [H1 [H2 [H3 H4]]].
  destruct p as [|c p]; [simpl in HL; lia|]. cbn [app] in HP. injection HP as <- HP.
  apply restart1_fails; auto.
  - cbn in K1. congruence.
  - rewrite ex_Mkdir in C1. destruct (kept_all _ _ _ _ _ _ _ _ _ _ _ _ _ _ C1) as [_ [T3 _]]. apply T3. reflexivity.
  - apply K3. cbn. rewrite H3 by lia. discriminate.
  - apply K3. cbn. rewrite H3 by lia. discriminate.
  - right. apply (absent_all T E St dT dE triv grow solve2 canoL canoR dbg L 0 (Mkdir :: p) (set_eng T E St None w) w2); auto. constructor; [exact I|].
    unfold init_envs in HP. set (loop := flat_map _ _) in HP.
    assert (FL : Forall (keeps_absent L 0) loop).
    { unfold loop. generalize (seq 1 (N - 1)). induction l as [|i l IH]; cbn [flat_map]; [constructor|]. apply Forall_app. split; auto. destruct (1 <? i); cbn [app]; sk. }
    change ([LoadM 0; SetAcc L 0; WriteAcc L 0; FreeM 0; EmptyM]) with ([LoadM 0; SetAcc L 0] ++ [WriteAcc L 0; FreeM 0; EmptyM]) in HP. rewrite !app_assoc in HP.
    set (front := (([LoadM (N - 1); SetAcc R (N - 1); WriteAcc R 0] ++ loop) ++ [LoadM 0; SetAcc L 0])) in HP.
    assert (FF : Forall (keeps_absent L 0) front).
    { unfold front. apply Forall_app. split; [apply Forall_app; split; auto|]; sk. }
    assert (LP : length p <= length front) by (assert (LL := f_equal (@length _) HP); rewrite (app_length front), (app_length p) in LL; cbn [length] in LL; lia).
    assert (PF : p = firstn (length p) front).
    { assert (X := f_equal (firstn (length p)) HP). rewrite firstn_app, firstn_app, Nat.sub_diag, firstn_all in X. cbn [firstn] in X. rewrite app_nil_r in X. replace (length p - length front) with 0 in X by lia. cbn [firstn] in X. rewrite app_nil_r in X. auto. }
    rewrite PF. apply Forall_forall. intros c Hc. rewrite Forall_forall in FF. apply FF. rewrite <- (firstn_skipn (length p) front). apply in_or_app. auto.
Qed.
(** no sweeps: the value returned is uninitialised *)
Theorem no_sweeps1 : forall w r, run 0 w <> Ok r.
Proof.
  intros w r H. unfold run_single, single_site in H. cbn [seq flat_map app] in H. rewrite <- (map_app B1 _ [DumpM 0 true]) in H. rewrite sexec_B in H.
  destruct (exec _ _) as [w1| |] eqn:E1; cbn [bind] in H; try discriminate.
  apply (SweepInst.eng_kept T E St dT dE triv grow solve2 canoL canoR dbg) in E1; [rewrite E1 in H; discriminate|].
  apply Forall_app. split; [|repeat constructor]. unfold prelude1. apply Forall_app. split; [|repeat constructor].
  destruct (tmp w); [constructor|]. constructor; [exact I|]. unfold init_envs. apply Forall_app. split; [repeat constructor|]. apply Forall_app. split; [|repeat constructor].
  generalize (seq 1 (nm w - 1)). induction l as [|i l IH]; cbn [flat_map]; [constructor|]. apply Forall_app. split; auto. destruct (1 <? i); repeat constructor.
Qed.
End Facts.
