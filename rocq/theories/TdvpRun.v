(** The whole TDVP run: preparation, overlaps and the record of measurements. *)
From Coq Require Import List Arith Lia Bool QArith.
From Verif Require Import Base Disk SweepSpec DiskFacts TwoSite TwoSiteFacts Tdvp TdvpSpec TdvpFacts.
Import ListNotations.
Local Open Scope nat_scope.

Section Run.
Variables T E M V : Type.
Variables (dT : T) (dE : E) (dM : M) (triv : side -> E) (grow : side -> nat -> E -> T -> E).
Variables (canoL canoR : T -> T -> T * T).
Variable evo : bool -> nat -> Q -> E -> T -> T -> E -> T * T.
Variable back : nat -> Q -> E -> T -> E -> T.
Variable dbg : bool.
Variable actO : T -> T.
Variable actI : option (T -> T).
Variables (mtr mtl : M) (mgr : T -> T -> M -> M) (mgl : M -> T -> T -> M) (mval : M -> T -> T -> M -> V).
Variable phase : Q -> V -> V.
Notation world := (world T E unit).
Notation exec := (exec T E unit dT dE triv grow (no_solve T E) canoL canoR dbg).
Notation nm := (nm T E unit). Notation mm := (mm T E unit). Notation ne := (ne T E unit). Notation dm := (dm T E unit).
Notation le := (le T E unit). Notation re := (re T E unit). Notation dl := (dl T E unit). Notation dr := (dr T E unit).
Notation eng := (eng T E unit). Notation acc := (acc T E unit). Notation tmp := (tmp T E unit).
Notation act1 := (act1 T E dT dE triv grow canoL canoR dbg).
Notation act_op := (act_op T E dT dE triv grow canoL canoR dbg actO actI).
Notation recenter := (recenter T E dT dE triv grow canoL canoR dbg).
Notation copy_initial := (copy_initial T E dT dE triv grow canoL canoR dbg).
Notation init_state := (init_state T E dT dE triv grow canoL canoR dbg actO actI).
Variable N : nat.
Notation right_env := (right_env T E triv grow N).
Notation tready := (tready T E triv grow N).
(** N tensors in files, none in memory *)
Definition idle (ts : nat -> T) (w : world) : Prop := nm w = N /\ (forall j, j < N -> mm w j = None) /\ (forall j, j < N -> dm w j = Some (ts j)).

Lemma copy_initial_ok ts w : idle ts w -> exists w' f, copy_initial w = Ok (w', f) /\ idle ts w' /\ tmp w' = tmp w /\ (forall i, i < N -> f i = Some (ts i)).
Proof.
  intros (H1 & H2 & H3). unfold Tdvp.copy_initial. rewrite H1.
  destruct (for_loop_inv _ (fun k (s : world * (nat -> option T)) => idle ts (fst s) /\ tmp (fst s) = tmp w /\ forall i, i < k -> snd s i = Some (ts i))
    (fun i (s : world * (nat -> option T)) => let (w, f) := s in
      let! w := exec [LoadM i] w in Ok (set_mm T E unit (fset (mm w) i None) w, fset f i (Some (orelse dT (mm w i))))) N 0 (w, fnone)) as ([w' f] & A & B & C & D).
  - split; [repeat split; auto|]. split; auto. intros; lia.
  - intros i [v f] Hi ((G1 & G2 & G3) & G4 & G5). cbn [fst snd] in *. rewrite (ex_LoadM _ _ _ _ _ _ _ _ _ _ _ _ _ _ (ts i)); [|lia|apply G3; lia]. cbn [Disk.exec bind]. eexists. split; [reflexivity|].
    cbn [fst snd]. split; [split; [|split]|split]; fs; auto.
    + intros j Hj. fcase; auto.
    + intros j Hj. fcase; auto. cbn. fcase. subst. auto. apply G5. lia.
  - exists w', f. cbn [fst snd] in *. rewrite Nat.add_0_l in D. auto.
Qed.
Lemma ex_nil w : exec [] w = Ok w.
Proof. reflexivity. Qed.
Lemma act1_ok g i ts w : i < N -> idle ts w -> exists w', act1 g i w = Ok w' /\ idle (fset ts i (g (ts i))) w' /\ tmp w' = tmp w.
Proof.
  intros Hi (H1 & H2 & H3). unfold Tdvp.act1. rewrite (ex_LoadM _ _ _ _ _ _ _ _ _ _ _ _ _ _ (ts i)); [|lia|apply H3; lia]. rewrite ex_nil. cbn [bind]. unfold getM, putM. fs. rewrite H1, !ltb_t by lia. cbn [use bind]. fs. rewrite ?H1, ?ltb_t by lia. cbn [bind].
  rewrite (ex_DumpM _ _ _ _ _ _ _ _ _ _ _ _ _ _ _ (g (ts i))); [|fs; lia|fs; auto]. eexists. split; [reflexivity|]. split; [split; [|split]|]; fs; auto.
  - intros j Hj. fcase; auto.
  - intros j Hj. fcase; subst; auto.
Qed.
Lemma strings_ok g : forall k ts w, k <= N -> idle ts w -> exists w' ts', for_each (rev (seq 0 k)) (act1 g) w = Ok w' /\ idle ts' w' /\ tmp w' = tmp w /\ (forall j, ts' j = if j <? k then g (ts j) else ts j).
Proof.
  induction k as [|k IH]; intros ts w Hk HI.
  - exists w, ts. cbn. auto.
  - rewrite seq_S, rev_unit. cbn [for_each Nat.add]. destruct (act1_ok g k ts w) as (w1 & A1 & A2 & A3); auto; try lia. rewrite A1. cbn [bind].
    destruct (IH _ w1 ltac:(lia) A2) as (w2 & ts2 & B1 & B2 & B3 & B4). exists w2, ts2. split; auto. split; auto. split; [congruence|]. intros j. rewrite B4.
    destruct (Nat.ltb_spec j k), (Nat.ltb_spec j (S k)); try lia; unfold fset; destruct (Nat.eqb_spec j k); subst; auto; lia.
Qed.
Lemma idle_ext ts ts' w : (forall j, j < N -> ts j = ts' j) -> idle ts w -> idle ts' w.
Proof. intros H (H1 & H2 & H3). split; auto. split; auto. intros j Hj. rewrite H3, H by auto. auto. Qed.
Lemma act_op_ok site ts w : site < N -> idle ts w -> exists w', act_op site w = Ok w' /\ idle (acted T actO actI site ts) w' /\ tmp w' = tmp w.
Proof.
  intros HS HI. unfold Tdvp.act_op. destruct (act1_ok actO site ts w) as (w1 & A1 & A2 & A3); auto. rewrite A1. cbn [bind]. unfold acted. destruct actI as [g|].
  - destruct (strings_ok g site _ w1 ltac:(lia) A2) as (w2 & ts2 & B1 & B2 & B3 & B4). exists w2. split; auto. split; [|congruence]. eapply idle_ext; [|exact B2]. intros j Hj. rewrite B4. unfold fset.
    destruct (Nat.ltb_spec j site), (Nat.eqb_spec j site); subst; auto; lia.
  - exists w1. split; auto. split; auto. eapply idle_ext; [|exact A2]. intros j Hj. unfold fset. destruct (Nat.eqb_spec j site); subst; auto. destruct (j <? site); auto.
Qed.
(** in the middle of recentering: only slot k occupied; the file of site k may be old *)
Definition carrying (k : nat) (ts : nat -> T) (w : world) : Prop :=
  nm w = N /\ (forall j, j < N -> mm w j = if j =? k then Some (ts j) else None) /\ (forall j, j < N -> j <> k -> dm w j = Some (ts j)).
Lemma recenter_loop : forall k ts w, k < N -> carrying k ts w -> exists w',
  for_each (rev (seq 1 k)) (fun i => exec [LoadM (i - 1); CanoR i; DumpM i true]) w = Ok w' /\ carrying 0 (center0 T canoR k ts) w' /\ tmp w' = tmp w.
Proof.
  induction k as [|k IH]; intros ts w Hk HC; [exists w; auto|].
  rewrite seq_S, rev_unit. cbn [for_each Nat.add]. destruct HC as (H1 & H2 & H3). cbn [center0]. replace (S k - 1) with k by lia.
  rewrite (ex_LoadM _ _ _ _ _ _ _ _ _ _ _ _ _ _ (ts k)); [|lia|apply H3; lia].
  rewrite (ex_CanoR _ _ _ _ _ _ _ _ _ _ _ _ _ _ (ts k) (ts (S k))); [|fs; lia|replace (S k - 1) with k by lia; fs; auto|fs; rewrite H2 by lia; rewrite Nat.eqb_refl; auto].
  rewrite (ex_DumpM _ _ _ _ _ _ _ _ _ _ _ _ _ _ _ (snd (canoR (ts k) (ts (S k))))); [|fs; lia|fs; auto]. cbn [Disk.exec bind]. replace (S k - 1) with k by lia.
  destruct (canoR (ts k) (ts (S k))) as [a b]. cbn [fst snd].
  match goal with |- context [for_each _ _ ?x] => set (w1 := x) end.
  destruct (IH (fset (fset ts k a) (S k) b) w1) as (w2 & B1 & B2 & B3); [lia| |exists w2; split; [exact B1|]; split; [exact B2|rewrite B3; reflexivity]].
  split; [|split]; unfold w1; fs; auto.
  - intros j Hj. fcase; subst; auto. rewrite H2 by lia. destruct (Nat.eqb_spec j (S k)); auto; lia.
  - intros j Hj Hn. fcase; subst; auto.
Qed.
Lemma recenter_ok site ts w : site < N -> idle ts w -> exists w', recenter true site w = Ok w' /\ idle (center0 T canoR site ts) w' /\ tmp w' = tmp w.
Proof.
  intros HS (H1 & H2 & H3). unfold Tdvp.recenter, load_as. rewrite H1, ltb_t by lia. rewrite H3 by lia. cbn [bind].
  match goal with |- context [for_each _ _ ?x] => set (w1 := x) end.
  destruct (recenter_loop site ts w1 HS) as (w2 & B1 & (C1 & C2 & C3) & B3).
  { split; [|split]; unfold w1; fs; auto. intros j Hj. fcase; subst; auto. }
  rewrite B1. cbn [bind]. rewrite (ex_DumpM _ _ _ _ _ _ _ _ _ _ _ _ _ _ _ (center0 T canoR site ts 0)); [|lia|rewrite C2 by lia; auto].
  eexists. split; [reflexivity|]. split; [split; [|split]|]; fs; auto.
  - intros j Hj. fcase; auto. rewrite C2 by lia. destruct (Nat.eqb_spec j 0); auto; lia.
  - intros j Hj. fcase; subst; auto.
Qed.
(** local_op_corr = false: the file of the last site is never read *)
Lemma recenter_wrong site ts w : 2 <= N -> site < N -> idle ts w -> exists w', recenter false site w = Ok w' /\ idle (center0 T canoR (N - 1) (fset ts (N - 1) (ts site))) w' /\ tmp w' = tmp w.
Proof.
  intros HN HS (H1 & H2 & H3). unfold Tdvp.recenter, load_as. rewrite H1, ltb_t by lia. rewrite H3 by lia. cbn [bind].
  match goal with |- context [for_each _ _ ?x] => set (w1 := x) end.
  destruct (recenter_loop (N - 1) (fset ts (N - 1) (ts site)) w1 ltac:(lia)) as (w2 & B1 & (C1 & C2 & C3) & B3).
  { split; [|split]; unfold w1; fs; auto. - intros j Hj. fcase; subst; auto. - intros j Hj Hn. fs. auto. }
  rewrite B1. cbn [bind]. rewrite (ex_DumpM _ _ _ _ _ _ _ _ _ _ _ _ _ _ _ (center0 T canoR (N - 1) (fset ts (N - 1) (ts site)) 0)); [|lia|rewrite C2 by lia; auto].
  eexists. split; [reflexivity|]. split; [split; [|split]|]; fs; auto.
  - intros j Hj. fcase; auto. rewrite C2 by lia. destruct (Nat.eqb_spec j 0); auto; lia.
  - intros j Hj. fcase; subst; auto.
Qed.
(** what the state is prepared as *)
Definition prepared (corr : bool) (site : nat) (ts : nat -> T) : nat -> T :=
  let a := acted T actO actI site ts in
  if corr then center0 T canoR site a else center0 T canoR (N - 1) (fset a (N - 1) (a site)).
Lemma init_state_ok corr site ini ts w : 2 <= N -> site < N -> idle ts w -> exists w' f2, init_state corr site ini w = Ok (w', f2) /\
  tready (prepared corr site ts) w' /\ match ini with Some f => f2 = f | None => forall i, i < N -> f2 i = Some (ts i) end.
Proof.
  intros HN HS HI. unfold Tdvp.init_state.
  assert (X : exists w1 f2, match ini with Some f => Ok (w, f) | None => copy_initial w end = Ok (w1, f2) /\ idle ts w1 /\ match ini with Some f => f2 = f | None => forall i, i < N -> f2 i = Some (ts i) end).
  { destruct ini as [f|]; [exists w, f; auto|]. destruct (copy_initial_ok ts w HI) as (w1 & f & A & B & C & D). exists w1, f. auto. }
  destruct X as (w1 & f2 & X1 & X2 & X3). rewrite X1. cbn [bind]. destruct (act_op_ok site ts w1 HS X2) as (w2 & A1 & A2 & _). rewrite A1. cbn [bind].
  assert (Y : exists w3, recenter corr site w2 = Ok w3 /\ idle (prepared corr site ts) w3).
  { unfold prepared. destruct corr; [destruct (recenter_ok site _ w2 HS A2) as (w3 & B1 & B2 & _)|destruct (recenter_wrong site _ w2 HN HS A2) as (w3 & B1 & B2 & _)]; exists w3; auto. }
  destruct Y as (w3 & B1 & B2). rewrite B1. cbn [bind].
  assert (Z : exists w4, exec ((if tmp w3 then [] else [Mkdir]) ++ init_envs (nm w3) 1) w3 = exec (init_envs (nm w3) 1) w4 /\ idle (prepared corr site ts) w4).
  { destruct (tmp w3); [exists w3; auto|]. cbn [app Disk.exec Disk.exec1 bind]. eexists. split; [reflexivity|]. destruct B2 as (G1 & G2 & G3). split; [|split]; fs; auto. }
  destruct Z as (w4 & Z1 & (G1 & G2 & G3)). rewrite Z1. destruct B2 as (F1 & _ & _). rewrite F1.
  destruct (init_envs_ok T E unit dT dE triv grow (no_solve T E) canoL canoR dbg N 1 (prepared corr site ts) w4 [] ltac:(lia) G1 G2 G3) as (w5 & D1 & D2 & D3 & D4 & D5 & D6 & D7 & D8 & D9 & D10).
  rewrite app_nil_r in D1. rewrite D1. cbn [Disk.exec bind]. exists w5, f2. split; auto. split; auto. constructor; auto.
  - intros j Hj. rewrite D4. apply G3; auto.
  - intros n Hn. apply D7. lia.
Qed.

Lemma center0_ext : forall k ts ts', (forall j, j < N -> ts j = ts' j) -> k < N -> forall j, j < N -> center0 T canoR k ts j = center0 T canoR k ts' j.
Proof.
  induction k as [|k IH]; intros ts ts' H Hk j Hj; cbn [center0]; auto. apply IH; auto; [|lia]. intros i Hi. rewrite (H k), (H (S k)) by lia. destruct (canoR (ts' k) (ts' (S k))). unfold fset.
  destruct (i =? S k); auto. destruct (i =? k); auto.
Qed.
Lemma lost_last site ini ts ts' w w' : 2 <= N -> site < N - 1 -> idle ts w -> idle ts' w' -> (forall j, j < N - 1 -> ts j = ts' j) -> exists v v' f f',
  init_state false site ini w = Ok (v, f) /\ init_state false site ini w' = Ok (v', f') /\ forall j, j < N -> dm v j = dm v' j.
Proof.
  intros HN HS HI HI' HE. destruct (init_state_ok false site ini ts w HN ltac:(lia) HI) as (v & f & A1 & A2 & _). destruct (init_state_ok false site ini ts' w' HN ltac:(lia) HI') as (v' & f' & B1 & B2 & _).
  exists v, v', f, f'. split; auto. split; auto. intros j Hj. rewrite (tr_dm _ _ _ _ _ _ _ A2), (tr_dm _ _ _ _ _ _ _ B2) by auto. f_equal. unfold prepared. apply center0_ext; auto; [|lia].
  intros i Hi. unfold fset, acted. rewrite Nat.eqb_refl, (HE site) by lia. destruct (Nat.eqb_spec i (N - 1)); auto. rewrite (HE i) by lia. auto.
Qed.

(** ** The overlap *)
Notation mexec := (mexec T M V dM mtr mtl mgr mgl mval N).
Notation overlap := (overlap T M V dM mtr mtl mgr mgl mval N).
Notation mkM := (mkM T M V). Notation m_1 := (m_1 T M V). Notation m_2 := (m_2 T M V). Notation m_r := (m_r T M V). Notation m_l := (m_l T M V). Notation m_f := (m_f T M V). Notation m_res := (m_res T M V).
Notation lefts := (lefts T M mtl mgl). Notation rights := (rights T M N mtr mgr).
Section Overlap.
Variables (f1 f2 : nat -> option T) (t1 t2 : nat -> T).
Hypothesis HF1 : forall i, i < N -> f1 i = Some (t1 i).
Hypothesis HF2 : forall i, i < N -> f2 i = Some (t2 i).
Hypothesis HN : 1 <= N.
Lemma me_Load i q s : i < N -> mexec f1 f2 (MLoad i :: q) s = mexec f1 f2 q (mkM (fset (m_1 s) i (Some (t1 i))) (fset (m_2 s) i (Some (t2 i))) (m_r s) (m_l s) (m_f s) (m_res s)).
Proof. intros. cbn [Tdvp.mexec Tdvp.mexec1]. rewrite ltb_t by lia. rewrite HF1, HF2 by auto. reflexivity. Qed.
Lemma me_Free i q s : i < N -> mexec f1 f2 (MFree i :: q) s = mexec f1 f2 q (mkM (fset (m_1 s) i None) (fset (m_2 s) i None) (m_r s) (m_l s) (m_f s) (m_res s)).
Proof. intros. cbn [Tdvp.mexec Tdvp.mexec1]. rewrite ltb_t by lia. reflexivity. Qed.
Lemma me_InitR q s a b : m_1 s (N - 1) = Some a -> m_2 s (N - 1) = Some b -> mexec f1 f2 (MInitR :: q) s = mexec f1 f2 q (mkM (m_1 s) (m_2 s) mtr (m_l s) (fset (m_f s) 0 (Some mtr)) (m_res s)).
Proof. intros A B. cbn [Tdvp.mexec Tdvp.mexec1]. rewrite ltb_t by lia. rewrite A, B. reflexivity. Qed.
Lemma me_InitL q s a b : m_1 s 0 = Some a -> m_2 s 0 = Some b -> mexec f1 f2 (MInitL :: q) s = mexec f1 f2 q (mkM (m_1 s) (m_2 s) (m_r s) mtl (m_f s) (m_res s)).
Proof. intros A B. cbn [Tdvp.mexec Tdvp.mexec1]. rewrite ltb_t by lia. rewrite A, B. reflexivity. Qed.
Lemma me_GrowR i n q s a b : i < N -> m_1 s i = Some a -> m_2 s i = Some b -> mexec f1 f2 (MGrowR i n :: q) s = mexec f1 f2 q (mkM (m_1 s) (m_2 s) (mgr b a (m_r s)) (m_l s) (fset (m_f s) n (Some (mgr b a (m_r s)))) (m_res s)).
Proof. intros H A B. cbn [Tdvp.mexec Tdvp.mexec1]. rewrite ltb_t by lia. rewrite A, B. reflexivity. Qed.
Lemma me_GrowL i q s a b : i < N -> m_1 s i = Some a -> m_2 s i = Some b -> mexec f1 f2 (MGrowL i :: q) s = mexec f1 f2 q (mkM (m_1 s) (m_2 s) (m_r s) (mgl (m_l s) b a) (m_f s) (m_res s)).
Proof. intros H A B. cbn [Tdvp.mexec Tdvp.mexec1]. rewrite ltb_t by lia. rewrite A, B. reflexivity. Qed.
Lemma me_Val i q s a b : i < N -> i < length (m_res s) -> m_1 s i = Some a -> m_2 s i = Some b ->
  mexec f1 f2 (MVal i :: q) s = mexec f1 f2 q (mkM (m_1 s) (m_2 s) (m_r s) (m_l s) (m_f s) (upd (m_res s) i (Some (mval (m_l s) b a (m_r s))))).
Proof. intros H H' A B. cbn [Tdvp.mexec Tdvp.mexec1]. rewrite ltb_t by lia. rewrite A, B. cbn [use bind]. rewrite vset_ok by auto. reflexivity. Qed.
Lemma me_Read n q s x : m_f s n = Some x -> mexec f1 f2 (MRead n :: q) s = mexec f1 f2 q (mkM (m_1 s) (m_2 s) x (m_l s) (fset (m_f s) n None) (m_res s)).
Proof. intros A. cbn [Tdvp.mexec Tdvp.mexec1]. rewrite A. reflexivity. Qed.
Lemma grow_right_ok : forall k i s q mf0, i + k = N -> 1 <= i -> (i = 1 -> m_1 s (N - 1) = Some (t1 (N - 1)) /\ m_2 s (N - 1) = Some (t2 (N - 1))) ->
  m_r s = rights t1 t2 (i - 1) -> (forall n, n < i -> m_f s n = Some (rights t1 t2 n)) -> (forall n, N <= n -> m_f s n = mf0 n) -> exists s',
  mexec f1 f2 (flat_map (fun i => (if 1 <? i then [MLoad (N - i)] else []) ++ [MGrowR (N - i) i; MFree (N - i)]) (seq i k) ++ q) s = mexec f1 f2 q s' /\
  m_r s' = rights t1 t2 (N - 1) /\ (forall n, n < N -> m_f s' n = Some (rights t1 t2 n)) /\ (forall n, N <= n -> m_f s' n = mf0 n) /\ m_res s' = m_res s.
Proof.
  induction k as [|k IH]; intros i s q mf0 HK H1 HM HR HF HG.
  - cbn [seq flat_map app]. exists s. split; auto. split; [rewrite HR; f_equal; lia|]. split; [intros; apply HF; lia|]. auto.
  - cbn [seq flat_map]. rewrite <- !app_assoc.
    assert (X : exists s1, mexec f1 f2 ((if 1 <? i then [MLoad (N - i)] else []) ++ ([MGrowR (N - i) i; MFree (N - i)] ++ flat_map (fun i => (if 1 <? i then [MLoad (N - i)] else []) ++ [MGrowR (N - i) i; MFree (N - i)]) (seq (S i) k) ++ q)) s
       = mexec f1 f2 ([MGrowR (N - i) i; MFree (N - i)] ++ flat_map (fun i => (if 1 <? i then [MLoad (N - i)] else []) ++ [MGrowR (N - i) i; MFree (N - i)]) (seq (S i) k) ++ q) s1 /\
       m_1 s1 (N - i) = Some (t1 (N - i)) /\ m_2 s1 (N - i) = Some (t2 (N - i)) /\ m_r s1 = m_r s /\ m_f s1 = m_f s /\ m_res s1 = m_res s).
    { destruct (Nat.ltb_spec 1 i) as [G|G].
      - cbn [app]. rewrite me_Load by lia. eexists. split; [reflexivity|]. cbn. rewrite !fset_eq by auto. auto.
      - replace i with 1 in * by lia. exists s. split; auto. destruct HM; auto. }
    destruct X as (s1 & X1 & X2 & X3 & X4 & X5 & X6). rewrite X1. cbn [app]. erewrite me_GrowR; [|lia|exact X2|exact X3]. rewrite me_Free by lia.
    assert (RR : mgr (t2 (N - i)) (t1 (N - i)) (m_r s1) = rights t1 t2 i).
    { rewrite X4, HR. replace i with (S (i - 1)) at 4 by lia. cbn [TdvpSpec.rights]. replace (N - 1 - (i - 1)) with (N - i) by lia. auto. }
    rewrite RR. edestruct (IH (S i)) as (s2 & B1 & B2 & B3 & B4 & B5); [lia|lia| | | | |exists s2; split; [exact B1|split; [exact B2|split; [exact B3|split; [exact B4|rewrite B5; exact X6]]]]].
    + intros; lia.
    + cbn. replace (i - 0) with i by lia. auto.
    + intros n Hn. cbn. fcase; subst; auto. rewrite X5. apply HF. lia.
    + intros n Hn. cbn. fcase; subst; auto. rewrite X5. apply HG. lia.
Qed.
Lemma values_ok : forall k i s mf0 r0, i + k = N -> (i = 0 -> m_1 s 0 = Some (t1 0) /\ m_2 s 0 = Some (t2 0) /\ m_r s = rights t1 t2 (N - 1)) ->
  (i < N -> m_l s = lefts t1 t2 i) -> (forall n, n < N - i -> m_f s n = Some (rights t1 t2 n)) -> (forall n, N - i <= n < N - 1 -> m_f s n = None) -> m_f s (N - 1) = Some (rights t1 t2 (N - 1)) -> (forall n, N <= n -> m_f s n = mf0 n) ->
  length (m_res s) = N -> (forall j, j < i -> nth_error (m_res s) j = Some (Some (overlap_at T M V N mtr mtl mgr mgl mval t1 t2 j))) -> r0 = tt -> exists s',
  mexec f1 f2 (flat_map (fun i => (if 0 <? i then [MRead (N - i - 1); MLoad i] else []) ++ [MVal i] ++ (if i <? N - 1 then [MGrowL i] else []) ++ [MFree i]) (seq i k)) s = Ok s' /\
  (forall n, n < N - 1 -> 1 <= N - 1 -> m_f s' n = None) /\ m_f s' (N - 1) = Some (rights t1 t2 (N - 1)) /\ (forall n, N <= n -> m_f s' n = mf0 n) /\ length (m_res s') = N /\
  (forall j, j < N -> nth_error (m_res s') j = Some (Some (overlap_at T M V N mtr mtl mgr mgl mval t1 t2 j))).
Proof.
  induction k as [|k IH]; intros i s mf0 r0 HK H0 HL HF HE HB HG HR HV H00.
  - exists s. cbn [seq flat_map Tdvp.mexec]. split; auto. split; [intros n Hn _; apply HE; lia|]. split; auto. split; auto. split; auto. intros j Hj. apply HV. lia.
  - cbn [seq flat_map]. rewrite <- !app_assoc.
    set (rest := flat_map (fun i => (if 0 <? i then [MRead (N - i - 1); MLoad i] else []) ++ [MVal i] ++ (if i <? N - 1 then [MGrowL i] else []) ++ [MFree i]) (seq (S i) k)) in *.
    set (p := [MVal i] ++ (if i <? N - 1 then [MGrowL i] else []) ++ [MFree i] ++ rest).
    assert (X : exists s1, mexec f1 f2 ((if 0 <? i then [MRead (N - i - 1); MLoad i] else []) ++ p) s = mexec f1 f2 p s1 /\ m_1 s1 i = Some (t1 i) /\ m_2 s1 i = Some (t2 i) /\ m_r s1 = rights t1 t2 (N - 1 - i) /\ m_l s1 = m_l s /\
      (forall n, n < N - S i -> m_f s1 n = Some (rights t1 t2 n)) /\ (forall n, N - S i <= n < N - 1 -> m_f s1 n = None) /\ m_f s1 (N - 1) = Some (rights t1 t2 (N - 1)) /\ (forall n, N <= n -> m_f s1 n = mf0 n) /\ m_res s1 = m_res s).
    { destruct (Nat.ltb_spec 0 i) as [G|G].
      - cbn [app]. rewrite (me_Read _ _ _ (rights t1 t2 (N - i - 1))) by (apply HF; lia). rewrite me_Load by lia. eexists. split; [reflexivity|]. cbn. rewrite !fset_eq by auto. replace (N - i - 1) with (N - 1 - i) by lia.
        split; [auto|split; [auto|split; [auto|split; [auto|split; [intros; fcase; apply HF; lia|split; [intros; fcase; auto; apply HE; lia|split; [fcase; auto|split; [intros; fcase; auto|auto]]]]]]]].
      - replace i with 0 in * by lia. destruct H0 as (A & B & C); auto. exists s. replace (N - 1 - 0) with (N - 1) by lia. cbn [app]. split; [auto|split; [auto|split; [auto|split; [auto|split; [auto|split; [auto|split; [auto|split; [auto|split; [auto|auto]]]]]]]]]; intros; try lia; apply HF; lia. }
    destruct X as (s1 & X1 & X2 & X3 & X4 & X5 & X6 & X7 & X8 & X9 & X10). rewrite X1. unfold p. cbn [app].
    erewrite me_Val; [|lia|rewrite X10, HR; lia|exact X2|exact X3].
    set (v := Some (mval (m_l s1) (t2 i) (t1 i) (m_r s1))).
    assert (EV : v = Some (overlap_at T M V N mtr mtl mgr mgl mval t1 t2 i)) by (unfold v, overlap_at; rewrite X4, X5, HL by lia; auto).
    assert (Y : exists s2, mexec f1 f2 ((if i <? N - 1 then [MGrowL i] else []) ++ [MFree i] ++ rest) (mkM (m_1 s1) (m_2 s1) (m_r s1) (m_l s1) (m_f s1) (upd (m_res s1) i v)) = mexec f1 f2 rest s2 /\
       (S i < N -> m_l s2 = lefts t1 t2 (S i)) /\ m_f s2 = m_f s1 /\ m_res s2 = upd (m_res s) i v).
    { destruct (Nat.ltb_spec i (N - 1)) as [G|G].
      - cbn [app]. erewrite me_GrowL; [|lia|exact X2|exact X3]. rewrite me_Free by lia. eexists. split; [reflexivity|]. cbn. rewrite X5, X10, HL by lia. auto.
      - cbn [app]. rewrite me_Free by lia. eexists. split; [reflexivity|]. cbn. rewrite X10. repeat split; auto; lia. }
    destruct Y as (s2 & Y1 & Y2 & Y3 & Y4). cbn [app] in Y1. rewrite Y1.
    apply (IH (S i) s2 mf0 r0); auto; try lia; rewrite ?Y3; auto.
    + rewrite Y4, upd_length. auto.
    + intros j Hj. rewrite Y4. destruct (Nat.eq_dec j i) as [->|NE].
      * rewrite nth_error_upd_same by (rewrite HR; lia). rewrite EV. auto.
      * rewrite nth_error_upd_other by auto. apply HV. lia.
Qed.
Lemma overlap_ok mf : exists c mf', overlap f1 f2 mf = Ok (c, mf') /\ length c = N /\ (forall i, i < N -> nth_error c i = Some (Some (overlap_at T M V N mtr mtl mgr mgl mval t1 t2 i))) /\
  (forall n, n < N - 1 -> mf' n = None) /\ mf' (N - 1) = Some (rights t1 t2 (N - 1)) /\ (forall n, N <= n -> mf' n = mf n).
Proof.
  unfold Tdvp.overlap, overlap_prog. cbn [app]. rewrite me_Load by lia.
  rewrite (me_InitR _ _ (t1 (N - 1)) (t2 (N - 1))); [|unfold Tdvp.m_1; rewrite fset_eq by auto; reflexivity|unfold Tdvp.m_2; rewrite fset_eq by auto; reflexivity].
  match goal with |- context [Tdvp.mexec _ _ _ _ _ _ _ _ _ _ _ _ (_ ++ _ :: _ :: ?p) ?x] => set (s0 := x); set (q := p) end.
  destruct (grow_right_ok (N - 1) 1 s0 (MLoad 0 :: MInitL :: q) mf) as (s1 & A1 & A2 & A3 & A4 & A5).
  - lia.
  - lia.
  - intros _. unfold s0, Tdvp.m_1, Tdvp.m_2. rewrite !fset_eq by auto. auto.
  - reflexivity.
  - intros n Hn. replace n with 0 by lia. reflexivity.
  - intros n Hn. unfold s0. cbn [Tdvp.m_f]. fcase. reflexivity.
  - rewrite A1. rewrite me_Load by lia. rewrite (me_InitL _ _ (t1 0) (t2 0)); [|unfold Tdvp.m_1; rewrite fset_eq by auto; reflexivity|unfold Tdvp.m_2; rewrite fset_eq by auto; reflexivity].
    match goal with |- context [Tdvp.mexec _ _ _ _ _ _ _ _ _ _ _ _ q ?x] => set (s2 := x) end.
    destruct (values_ok N 0 s2 mf tt) as (s3 & B1 & B2 & B3 & B4 & B5 & B6).
    + lia.
    + intros _. unfold s2. cbn [Tdvp.m_1 Tdvp.m_2 Tdvp.m_r]. rewrite !fset_eq by auto. auto.
    + reflexivity.
    + intros n Hn. apply A3. lia.
    + intros; lia.
    + apply A3. lia.
    + exact A4.
    + unfold s2. cbn [Tdvp.m_res]. rewrite A5. apply repeat_length.
    + intros; lia.
    + reflexivity.
    + replace (mexec f1 f2 q s2) with (Ok s3) by (symmetry; exact B1). cbn [bind]. exists (m_res s3), (m_f s3). split; [reflexivity|split; [exact B5|split; [exact B6|split; [|split; [exact B3|exact B4]]]]]. intros n Hn. apply B2; lia.
Qed.
End Overlap.

(** ** The record *)
Notation record_all := (record_all V).
Lemma record_ok site base time ph c r : length c = N -> base + N <= length r -> exists r', record_all N site base time ph c r = Ok r' /\ length r' = length r /\
  (forall i v, i < N -> nth_error c i = Some v -> nth_error r' (base + i) = Some (Some (mkE V site i time (ph v)))) /\ (forall j, (j < base \/ base + N <= j) -> nth_error r' j = nth_error r j).
Proof.
  intros HC HR. unfold Tdvp.record_all.
  destruct (for_loop_inv _ (fun k (x : list (option (entry V))) => length x = length r /\ (forall i v, i < k -> nth_error c i = Some v -> nth_error x (base + i) = Some (Some (mkE V site i time (ph v)))) /\
      (forall j, (j < base \/ base + k <= j) -> nth_error x j = nth_error r j))
    (fun i r => let! v := vget c i in vset r (base + i) (Some (mkE V site i time (ph v)))) N 0 r) as (r' & A & B & C & D).
  - repeat split; auto. intros; lia.
  - intros i x Hi (H1 & H2 & H3). destruct (nth_error c i) as [v|] eqn:EV; [|apply nth_error_None in EV; lia]. unfold vget at 1. rewrite EV. cbn [bind]. rewrite vset_ok by lia. eexists. split; [reflexivity|]. split; [rewrite upd_length; auto|]. split.
    + intros j u Hj EU. destruct (Nat.eq_dec j i) as [->|NE].
      * rewrite nth_error_upd_same by lia. congruence.
      * rewrite nth_error_upd_other by lia. apply H2; auto. lia.
    + intros j Hj. rewrite nth_error_upd_other by lia. apply H3. lia.
  - exists r'. rewrite Nat.add_0_l in *. auto.
Qed.
Lemma record_oob site base time ph c r : 1 <= N -> length c = N -> length r < base + N -> record_all N site base time ph c r = Ub.
Proof.
  intros HN HC HR. unfold Tdvp.record_all.
  assert (X : forall k r, k <= N -> length r < base + N -> (1 <= k) -> (base + (N - k) <= length r \/ length r < base) ->
    for_loop (N - k) k (fun i r => let! v := vget c i in vset r (base + i) (Some (mkE V site i time (ph v)))) r = Ub).
  { clear r HR. induction k as [|k IH]; intros r HK HR H1 H2; [lia|]. cbn [for_loop].
    destruct (nth_error c (N - S k)) as [v|] eqn:EV; [|apply nth_error_None in EV; lia]. unfold vget at 1. rewrite EV. cbn [bind].
    destruct (Nat.lt_ge_cases (base + (N - S k)) (length r)) as [LT|GE].
    - rewrite vset_ok by lia. cbn [bind]. replace (S (N - S k)) with (N - k) by lia. apply IH; rewrite ?upd_length; lia.
    - unfold vset. rewrite (proj2 (Nat.ltb_ge _ _)) by lia. reflexivity. }
  replace 0 with (N - N) by lia. apply X; lia.
Qed.

(** ** The run *)
Notation tdvp_run := (tdvp_run T E M V dT dE dM triv grow canoL canoR evo back dbg actO actI mtr mtl mgr mgl mval phase).
Notation after := (after T E triv grow evo back N).
Notation tau_step := (tau_step T E triv grow evo back N).
Notation overlap_at := (overlap_at T M V N mtr mtl mgr mgl mval).
Lemma tready_idle ts w : tready ts w -> idle ts w.
Proof. intros [A B C D F]. split; [|split]; auto. Qed.
Definition e_time_of (tau : Q) (k : nat) : Q := match k with O => 0%Q | S _ => (inject_Z (Z.of_nat k) * tau)%Q end.
Definition e_val (tau : Q) (k : nat) (v : V) : V := match k with O => v | S _ => phase (e_time_of tau k) v end.
Lemma run_ok site steps tau ini t0 mf ts w : 3 <= N -> site < N -> idle ts w -> (match ini with Some f => forall i, i < N -> f i = Some (t0 i) | None => t0 = ts end) -> exists r w',
  tdvp_run true site steps tau ini mf w = Ok (r, w') /\ length r = N * (steps + 1) /\ tready (after tau steps (prepared true site ts)) w' /\
  (forall k i, k <= steps -> i < N -> nth_error r (k * N + i) = Some (Some (mkE V site i (e_time_of tau k) (Some (e_val tau k (overlap_at (after tau k (prepared true site ts)) t0 i)))))).
Proof.
  intros HN HS HI H0. unfold Tdvp.tdvp_run. destruct (init_state_ok true site ini ts w ltac:(lia) HS HI) as (w1 & f2 & A1 & A2 & A3). rewrite A1. cbn [bind]. destruct HI as (HW & _ & _). rewrite HW.
  assert (HF2 : forall i, i < N -> f2 i = Some (t0 i)) by (intros i Hi; destruct ini as [f|]; [rewrite A3; auto|rewrite A3, H0 by auto; auto]).
  set (p := prepared true site ts) in *.
  destruct (overlap_ok (dm w1) f2 p t0 (tr_dm _ _ _ _ _ _ _ A2) HF2 ltac:(lia) mf) as (c & mf1 & B1 & B2 & B3 & _). rewrite B1. cbn [bind].
  destruct (record_ok site 0 0%Q (fun v => v) c (repeat None (N * (steps + 1))) B2) as (r1 & C1 & C2 & C3 & C4); [rewrite repeat_length; nia|]. rewrite C1. cbn [bind]. rewrite repeat_length in C2.
  destruct (for_loop_inv _ (fun n (s : list (option (entry V)) * world * (nat -> option M)) => length (fst (fst s)) = N * (steps + 1) /\ tready (after tau n p) (snd (fst s)) /\
     (forall k i, k <= n -> i < N -> nth_error (fst (fst s)) (k * N + i) = Some (Some (mkE V site i (e_time_of tau k) (Some (e_val tau k (overlap_at (after tau k p) t0 i)))))))
   (fun step (s : list (option (entry V)) * world * (nat -> option M)) => let '(r, w, mf) := s in
    let! w := sweep_run T E dT dE triv grow canoL canoR evo back dbg tau w in
    let time := (inject_Z (Z.of_nat (step + 1)) * tau)%Q in
    let! (c, mf) := overlap (dm w) f2 mf in
    let! r := record_all N site ((step + 1) * N) time (option_map (phase time)) c r in Ok (r, w, mf)) steps 0 (r1, w1, mf1)) as ([[r w'] mf'] & D1 & D2 & D3 & D4).
  - cbn [fst snd]. split; auto. split; auto. intros k i Hk Hi. replace k with 0 by lia. cbn [Nat.mul]. apply C3; auto. apply B3; auto.
  - intros n [[r v] mfn] Hn (E1 & E2 & E3). cbn [fst snd] in *.
    destruct (sweep_run_ok T E dT dE triv grow canoL canoR evo back dbg N tau _ v HN E2) as (v1 & F1 & F2 & F3). rewrite F1. cbn [bind].
    destruct (overlap_ok (dm v1) f2 _ t0 (tr_dm _ _ _ _ _ _ _ F2) HF2 ltac:(lia) mfn) as (cn & mf2 & G1 & G2 & G3 & _). rewrite G1. cbn [bind].
    destruct (record_ok site ((n + 1) * N) (inject_Z (Z.of_nat (n + 1)) * tau)%Q (option_map (phase (inject_Z (Z.of_nat (n + 1)) * tau)%Q)) cn r G2) as (r2 & K1 & K2 & K3 & K4); [rewrite E1; nia|]. rewrite K1. cbn [bind].
    eexists. split; [reflexivity|]. cbn [fst snd]. split; [congruence|]. split; [exact F2|]. intros k i Hk Hi. destruct (Nat.eq_dec k (S n)) as [->|NE].
    + replace (S n * N + i) with ((n + 1) * N + i) by lia. rewrite (K3 i _ Hi (G3 i Hi)). cbn [option_map e_time_of e_val]. replace (n + 1) with (S n) by lia. reflexivity.
    + rewrite K4 by nia. apply E3; lia.
  - cbn [fst snd] in *. exists r, w'. rewrite Nat.add_0_l in *.
    replace (for_loop 0 steps _ (r1, w1, mf1)) with (Ok (r, w', mf')) by (symmetry; exact D1). cbn [bind]. auto.
Qed.
Lemma for_loop_ub {A} (P : A -> Prop) (body : nat -> A -> res A) : forall n s st, P st ->
  (forall i x, s <= i < s + n -> P x -> body i x = Ub \/ exists y, body i x = Ok y /\ P y /\ S i < s + n) -> 1 <= n -> for_loop s n body st = Ub.
Proof.
  induction n as [|n IH]; intros s st HP HB H1; [lia|]. cbn [for_loop]. destruct (HB s st) as [X|(y & X & Y & Z)]; auto; [lia| |]; rewrite X; cbn [bind]; auto.
  apply IH; auto; [|lia]. intros i x Hi HX. destruct (HB i x) as [X'|(y' & X' & Y' & Z')]; auto; [lia|]. right. exists y'. split; auto. split; auto. lia.
Qed.
Lemma run_oob site steps tau ini t0 mf ts w : 2 <= N -> site < N -> idle ts w -> (match ini with Some f => forall i, i < N -> f i = Some (t0 i) | None => t0 = ts end) ->
  tdvp_run false site steps tau ini mf w = Ub.
Proof.
  intros HN HS HI H0. unfold Tdvp.tdvp_run. destruct (init_state_ok false site ini ts w ltac:(lia) HS HI) as (w1 & f2 & A1 & A2 & A3). rewrite A1. cbn [bind]. destruct HI as (HW & _ & _). rewrite HW.
  assert (HF2 : forall i, i < N -> f2 i = Some (t0 i)) by (intros i Hi; destruct ini as [f|]; [rewrite A3; auto|rewrite A3, H0 by auto; auto]).
  destruct (overlap_ok (dm w1) f2 _ t0 (tr_dm _ _ _ _ _ _ _ A2) HF2 ltac:(lia) mf) as (c & mf1 & B1 & B2 & B3 & _). rewrite B1. cbn [bind].
  destruct (Nat.lt_ge_cases (steps + 1) N) as [LT|GE].
  - rewrite record_oob; [reflexivity|lia|auto|rewrite repeat_length; lia].
  - destruct (record_ok site 0 0%Q (fun v => v) c (repeat None (steps + 1)) B2) as (r1 & C1 & C2 & C3 & C4); [rewrite repeat_length; lia|]. rewrite C1. cbn [bind]. rewrite repeat_length in C2.
    replace (for_loop 0 steps _ (r1, w1, mf1)) with (@Ub (list (option (entry V)) * world * (nat -> option M))); [reflexivity|]. symmetry.
    apply (for_loop_ub (fun s : list (option (entry V)) * world * (nat -> option M) => length (fst (fst s)) = steps + 1 /\ exists t, tready t (snd (fst s)))); [cbn [fst snd]; eauto| |lia].
    intros i [[r v] mfn] Hi (E1 & (t & E2)). cbn [fst snd] in *.
    destruct (Nat.eq_dec N 2) as [N2|N2].
    + left. rewrite (two_sites_ub T E dT dE triv grow canoL canoR evo back dbg N tau t v N2 E2). reflexivity.
    + destruct (sweep_run_ok T E dT dE triv grow canoL canoR evo back dbg N tau _ v ltac:(lia) E2) as (v1 & F1 & F2 & F3). rewrite F1. cbn [bind].
      destruct (overlap_ok (dm v1) f2 _ t0 (tr_dm _ _ _ _ _ _ _ F2) HF2 ltac:(lia) mfn) as (cn & mf2 & G1 & G2 & G3 & _). rewrite G1. cbn [bind].
      destruct (Nat.lt_ge_cases (length r) ((i + 1) * N + N)) as [L1|L1].
      * left. rewrite record_oob; auto; lia.
      * right. destruct (record_ok site ((i + 1) * N) (inject_Z (Z.of_nat (i + 1)) * tau)%Q (option_map (phase (inject_Z (Z.of_nat (i + 1)) * tau)%Q)) cn r G2 L1) as (r2 & K1 & K2 & K3 & K4). rewrite K1. cbn [bind].
        eexists. split; [reflexivity|]. cbn [fst snd]. split; [split; [congruence|eauto]|]. nia.
Qed.
Lemma run_two_sites site steps tau ini t0 mf ts w : N = 2 -> site < N -> idle ts w -> (match ini with Some f => forall i, i < N -> f i = Some (t0 i) | None => t0 = ts end) -> 1 <= steps ->
  tdvp_run true site steps tau ini mf w = Ub.
Proof.
  intros HN HS HI H0 H1. unfold Tdvp.tdvp_run. destruct (init_state_ok true site ini ts w ltac:(lia) HS HI) as (w1 & f2 & A1 & A2 & A3). rewrite A1. cbn [bind]. destruct HI as (HW & _ & _). rewrite HW.
  assert (HF2 : forall i, i < N -> f2 i = Some (t0 i)) by (intros i Hi; destruct ini as [f|]; [rewrite A3; auto|rewrite A3, H0 by auto; auto]).
  destruct (overlap_ok (dm w1) f2 _ t0 (tr_dm _ _ _ _ _ _ _ A2) HF2 ltac:(lia) mf) as (c & mf1 & B1 & B2 & B3 & _). rewrite B1. cbn [bind].
  destruct (record_ok site 0 0%Q (fun v => v) c (repeat None (N * (steps + 1))) B2) as (r1 & C1 & C2 & C3 & C4); [rewrite repeat_length; nia|]. rewrite C1. cbn [bind].
  destruct steps as [|n]; [lia|]. cbn [for_loop]. rewrite (two_sites_ub T E dT dE triv grow canoL canoR evo back dbg N tau _ w1 HN A2). reflexivity.
Qed.
End Run.
