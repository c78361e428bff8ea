(** Proofs about measurements from disk *)
From Coq Require Import List Arith Lia Bool ZArith Ring.
From Verif Require Import Base FiniteMps FmpsSpec FmpsFacts FmpsTruth EffHam EffHamSpec FinMpoSpec FinMpoFacts Measure MeasureSpec MeasureFacts MeasureChain MeasureMem.
Import ListNotations.

Section Disk.
Variables (R : Type) (r0 r1 : R) (radd rmul rsub : R -> R -> R) (ropp : R -> R).
Variable Rth : ring_theory r0 r1 radd rmul rsub ropp (@eq R).
Variable conj : R -> R.
Hypothesis conj_0 : conj r0 = r0.
Hypothesis conj_1 : conj r1 = r1.
Hypothesis conj_add : forall a b, conj (radd a b) = radd (conj a) (conj b).
Hypothesis conj_mul : forall a b, conj (rmul a b) = rmul (conj a) (conj b).
Notation ten := (ten R). Notation lop := (lop R). Notation fmps := (fmps R).
Notation expect := (expect R r0 r1 radd rmul conj).
Notation LC := (left_canonical R r0 r1 radd rmul conj). Notation RC := (right_canonical R r0 r1 radd rmul conj).
Notation identities := (identities R r0 r1).
Notation fit := (fit R).
Notation same := (same_state R r0 r1 radd rmul 1 1).
Variable op_eqb : lop -> lop -> bool.
Hypothesis op_eqb_sound : forall a b, op_eqb a b = true -> odim a = odim b /\ forall s s', s < odim b -> s' < odim b -> oe a s s' = oe b s s'.
Variable qr : ten -> ten * mat2 R.
Hypothesis QR : qr_exact R r0 r1 radd rmul conj qr.
Notation lcan := (lcan_ten R r0 radd rmul qr).
Variable disk : nat -> option ten.
Variables (A : list ten) (ids : list lop).
Hypothesis HA : stored_at_0 R r0 r1 radd rmul conj disk A.
Hypothesis HI : identities A ids.
Notation N := (length A).
Notation load := (load_ten R disk).

(** ** Memory as a function *)
Definition mem (f : nat -> option ten) (st : fmps) : Prop := length (tens st) = N /\ length (types st) = N /\ forall i, i < N -> nth_error (tens st) i = Some (f i).
Definition set (f : nat -> option ten) (i : nat) (p : option ten) : nat -> option ten := fun j => if j =? i then p else f j.
Definition none : nat -> option ten := fun _ => None.
Definition single (j : nat) (t : ten) : nat -> option ten := fun i => if i =? j then Some t else None.
Lemma mem_ext f g st : mem f st -> (forall i, i < N -> f i = g i) -> mem g st.
Proof. intros (H1 & H2 & H3) H. split; auto. split; auto. intros i Hi. rewrite H3, H; auto. Qed.
Lemma mem_none st : mem none st <-> no_tensors R st N.
Proof.
  split.
  - intros (H1 & H2 & H3). split; auto. apply nth_error_ext. intros i. destruct (Nat.lt_ge_cases i N) as [H|H].
    + rewrite H3 by auto. rewrite nth_repeat_lt; auto. + rewrite (proj2 (nth_error_None _ _)) by lia. symmetry. apply nth_error_None. rewrite repeat_length. auto.
  - intros (H1 & H2). split; [rewrite H1; apply repeat_length|]. split; auto. intros i Hi. rewrite H1. apply nth_repeat_lt. auto.
Qed.
Lemma mem_put f st i p : mem f st -> i < N -> exists st', put R i p st = Ok st' /\ mem (set f i p) st'.
Proof.
  intros (H1 & H2 & H3) Hi. rewrite put_ok by lia. eexists. split; [reflexivity|]. cbn [tens types]. split; [cbn [tens]; rewrite upd_length; auto|]. split; auto. cbn [tens]. intros j Hj. unfold set.
  destruct (Nat.eqb_spec j i) as [->|Ne]; [apply nth_error_upd_same; lia|]. rewrite nth_error_upd_other by auto. auto.
Qed.
Lemma mem_touch f st i : mem f st -> i < N -> exists st', touch R i st = Ok st' /\ mem f st'.
Proof. intros (H1 & H2 & H3) Hi. rewrite touch_ok by lia. eexists. split; [reflexivity|]. split; auto. split; auto. cbn [types]. rewrite upd_length. auto. Qed.
Lemma mem_deref f st i t : mem f st -> i < N -> f i = Some t -> deref R st i = Ok t.
Proof. intros (H1 & H2 & H3) Hi Hf. apply deref_ok. rewrite H3, Hf; auto. Qed.
Lemma mem_at f st i t : mem f st -> i < N -> f i = Some t -> exists st', at_ R i st = Ok (st', t) /\ mem f st'.
Proof. intros H Hi Hf. unfold at_. destruct (mem_touch f st i H Hi) as (st' & E & H'). rewrite E. cbn [bind]. rewrite (mem_deref f st' i t H' Hi Hf). eexists. split; [reflexivity|]. auto. Qed.
Lemma mem_load f st i t : mem f st -> nth_error A i = Some t -> exists st', load i st = Ok st' /\ mem (set f i (Some t)) st'.
Proof.
  intros H Ht. assert (Hi : i < N) by (apply nth_error_Some; congruence). unfold load_ten. destruct (mem_put f st i None H Hi) as (st1 & E1 & M1). rewrite E1. cbn [bind].
  destruct HA as (_ & _ & HD). rewrite (HD i t Ht). destruct (mem_put _ st1 i (Some t) M1 Hi) as (st2 & E2 & M2). rewrite E2. eexists. split; [reflexivity|].
  apply (mem_ext _ _ _ M2). intros j Hj. unfold set. destruct (j =? i); auto.
Qed.
Lemma mem_dealloc f st i : mem f st -> i < N -> exists st', dealloc R i st = Ok st' /\ mem (set f i None) st'.
Proof. intros. apply mem_put; auto. Qed.
Lemma mem_flag f st i c : mem f st -> i < N -> exists st', flag R i c st = Ok st' /\ mem f st'.
Proof. intros (H1 & H2 & H3) Hi. rewrite flag_ok by lia. eexists. split; [reflexivity|]. split; auto. split; auto. cbn [types]. rewrite upd_length. auto. Qed.
Lemma mem_lcan f st i a b dbg : mem f st -> i + 1 < N -> f i = Some a -> f (i + 1) = Some b -> d2 a = d0 b ->
  exists st' b', lcan dbg i st = Ok st' /\ contract_mt R r0 radd rmul (snd (qr a)) b = Ok b' /\ mem (set (set f i (Some (fst (qr a)))) (i + 1) (Some b')) st'.
Proof.
  intros H Hi Ha Hb HD. unfold lcan_ten. pose proof (proj1 H) as LT. rewrite LT. destruct (Nat.ltb_spec (S i) N); [|lia]. cbn [orb]. replace (assert_ dbg true) with (Ok tt) by (destruct dbg; auto). cbn [bind].
  destruct (mem_touch f st i H ltac:(lia)) as (st1 & E1 & M1). rewrite E1. cbn [bind]. rewrite (mem_deref f st1 i a M1) by (auto; lia). cbn [bind].
  pose proof (QR a) as Q. destruct (qr a) as [q m]. destruct Q as (Q1 & Q2 & Q3 & Q4 & _). cbn [fst snd].
  destruct (mem_put f st1 i (Some q) M1 ltac:(lia)) as (st2 & E2 & M2). rewrite E2. cbn [bind].
  destruct (mem_touch _ st2 (i + 1) M2 ltac:(lia)) as (st3 & E3 & M3). rewrite E3. cbn [bind]. rewrite (mem_deref _ st3 (i + 1) b M3).
  3:{ unfold set. destruct (Nat.eqb_spec (i + 1) i); [lia|auto]. } 2:{ lia. }
  cbn [bind].
  assert (EC : exists b', contract_mt R r0 radd rmul m b = Ok b') by (unfold contract_mt; rewrite Q4, HD, Nat.eqb_refl; eauto). destruct EC as (b' & EC). rewrite EC. cbn [bind].
  destruct (mem_put _ st3 (i + 1) (Some b') M3 ltac:(lia)) as (st4 & E4 & M4). rewrite E4. cbn [bind].
  destruct (mem_flag _ st4 i LEFT M4 ltac:(lia)) as (st5 & E5 & M5). rewrite E5. cbn [bind]. destruct (mem_flag _ st5 (i + 1) NONE M5 ltac:(lia)) as (st6 & E6 & M6). rewrite E6. eauto.
Qed.

(** ** The center *)
Definition chain (B : list ten) (j : nat) (t : ten) : Prop := nth_error B j = Some t /\ same A B /\ Forall LC (firstn j B) /\ skipn (j + 1) B = skipn (j + 1) A.
Lemma chain_right B j t : chain B j t -> Forall RC (skipn (j + 1) B).
Proof.
  intros (_ & _ & _ & ->). destruct HA as (_ & H & _). replace (skipn (j + 1) A) with (skipn j (tl A)) by (rewrite Nat.add_1_r; destruct A; cbn; [destruct j; auto|auto]). apply Forall_skipn. auto.
Qed.
Lemma chain_0 t : nth_error A 0 = Some t -> chain A 0 t.
Proof. intros H. split; auto. split; [apply same_refl; apply HA|]. split; [constructor|auto]. Qed.
Lemma chain_step B j t b b' : chain B j t -> nth_error A (j + 1) = Some b -> contract_mt R r0 radd rmul (snd (qr t)) b = Ok b' -> d2 t = d0 b /\ exists B', chain B' (j + 1) b'.
Proof.
  intros (H1 & H2 & H3 & H4) Hb HC.
  assert (Eb : nth_error B (j + 1) = Some b) by (pose proof (nth_skipn _ B (j + 1) 0) as E; rewrite H4, nth_skipn, Nat.add_0_r, Hb in E; auto).
  assert (EB : B = firstn j B ++ t :: b :: skipn (j + 1 + 1) B).
  { rewrite <- (firstn_skipn j B) at 1. rewrite (skipn_cons _ _ _ _ H1). f_equal. f_equal. rewrite <- Nat.add_1_r. rewrite (skipn_cons _ _ _ _ Eb). f_equal. f_equal. lia. }
  assert (LJ : length (firstn j B) = j) by (rewrite firstn_length; assert (j < length B) by (apply nth_error_Some; congruence); lia).
  split. { eapply fit_nth; [exact (ss_link _ _ _ _ _ _ _ _ _ H2)|exact H1|exact Eb]. }
  exists (firstn j B ++ fst (qr t) :: b' :: skipn (j + 1 + 1) B).
  assert (HS : same B (firstn j B ++ fst (qr t) :: b' :: skipn (j + 1 + 1) B)).
  { pose proof (lcan_same R r0 r1 radd rmul rsub ropp Rth conj qr QR 1 1 (firstn j B) t b (skipn (j + 1 + 1) B) b') as HL. rewrite <- EB in HL. apply HL; auto. exact (ss_link _ _ _ _ _ _ _ _ _ H2). }
  split; [|split; [|split]].
  - rewrite nth_error_app2 by lia. rewrite LJ. replace (j + 1 - j) with 1 by lia. auto.
  - eapply same_trans; eauto.
  - rewrite firstn_app, LJ. replace (j + 1 - j) with 1 by lia. cbn [firstn]. apply Forall_app. split; [rewrite firstn_all2 by lia; auto|]. constructor; [|constructor]. pose proof (QR t) as Q. destruct (qr t). apply Q.
  - rewrite skipn_app, LJ. replace (j + 1 + 1 - j) with 2 by lia. cbn [skipn]. rewrite skipn_all2 by lia. cbn [app]. pose proof (skipn_skipn' _ B 1 (j + 1)) as E. rewrite <- E, H4. apply skipn_skipn'.
Qed.
Lemma move_step st B j t dbg : mem (single j t) st -> chain B j t -> j + 1 < N ->
  exists st' B' t', (let! st := load (j + 1) st in let! st := lcan dbg j st in dealloc R j st) = Ok st' /\ mem (single (j + 1) t') st' /\ chain B' (j + 1) t'.
Proof.
  intros HM HC HJ. destruct (nth_error A (j + 1)) as [b|] eqn:Eb; [|apply nth_error_None in Eb; lia].
  destruct (mem_load _ st (j + 1) b HM Eb) as (st1 & E1 & M1). rewrite E1. cbn [bind].
  assert (HD : d2 t = d0 b).
  { destruct HC as (H1 & H2 & H3 & H4). eapply fit_nth; [exact (ss_link _ _ _ _ _ _ _ _ _ H2)|exact H1|]. pose proof (nth_skipn _ B (j + 1) 0) as E. rewrite H4, nth_skipn, Nat.add_0_r, Eb in E. auto. }
  destruct (mem_lcan _ st1 j t b dbg M1 HJ) as (st2 & b' & E2 & EC & M2); auto.
  { unfold set, single. destruct (Nat.eqb_spec j (j + 1)); [lia|]. rewrite Nat.eqb_refl. auto. } { unfold set. rewrite Nat.eqb_refl. auto. }
  rewrite E2. cbn [bind]. destruct (mem_dealloc _ st2 j M2 ltac:(lia)) as (st3 & E3 & M3). rewrite E3.
  destruct (chain_step B j t b b' HC Eb EC) as (_ & B' & HC'). exists st3, B', b'. split; auto. split; auto. apply (mem_ext _ _ _ M3). intros i Hi. unfold set, single.
  destruct (Nat.eqb_spec i j), (Nat.eqb_spec i (j + 1)); auto; lia.
Qed.
Lemma move_center_ok dbg p s st B t : mem (single p t) st -> chain B p t -> p <= s < N ->
  exists st' B' t', move_center R r0 radd rmul qr disk dbg p s st = Ok st' /\ mem (single s t') st' /\ chain B' s t'.
Proof.
  intros HM HC HS. unfold move_center.
  match goal with |- context [for_loop p ?n ?b ?s] => destruct (for_loop_inv _ (fun i st => exists B t, mem (single i t) st /\ chain B i t) b n p s) as (st' & E & B' & t' & H1 & H2) end.
  - eauto.
  - intros i st1 Hi (B1 & t1 & M1 & C1). destruct (move_step st1 B1 i t1 dbg M1 C1 ltac:(lia)) as (st2 & B2 & t2 & E & M2 & C2). exists st2. split; auto. exists B2, t2. rewrite <- Nat.add_1_r. auto.
  - replace (p + (s - p)) with s in * by lia. exists st', B', t'. auto.
Qed.
Lemma load_first st : mem none st -> 0 < N -> exists st' t, load 0 st = Ok st' /\ mem (single 0 t) st' /\ chain A 0 t.
Proof.
  intros HM HN. destruct (nth_error A 0) as [t|] eqn:E; [|apply nth_error_None in E; lia]. destruct (mem_load _ st 0 t HM E) as (st' & E1 & M1). exists st', t. split; auto. split; [exact M1|]. apply chain_0. auto.
Qed.
Lemma chain_nth B j t a : chain B j t -> nth_error A j = Some a -> d1 t = d1 a.
Proof. intros (H1 & H2 & _) Ha. destruct (same_nth R r0 r1 radd rmul A B j a H2 Ha) as (t' & E1 & E2). congruence. Qed.
Lemma chain_fit B j t : chain B j t -> fit 1 B 1.
Proof. intros (_ & H & _). exact (ss_link _ _ _ _ _ _ _ _ _ H). Qed.
Lemma chain_ids B j t : chain B j t -> identities B ids.
Proof. intros (_ & H & _). eapply same_ids; eauto. Qed.
Lemma chain_one B j t o : chain B j t -> odim o = d1 t -> one_avg R r0 radd rmul conj t o = Ok (expect A (upd ids j o)).
Proof.
  intros HC HO. pose proof HC as (H1 & H2 & H3 & H4). rewrite <- (same_expect R r0 r1 radd rmul conj A B _ H2).
  apply (one_ok R r0 r1 radd rmul rsub ropp Rth conj conj_0 conj_1 conj_add conj_mul B ids); auto.
  - eapply chain_fit; eauto. - eapply chain_ids; eauto. - eapply chain_right; eauto.
Qed.

(** ** One-site operators *)
Notation ones := (ones R r0 r1 radd rmul conj A ids).
Theorem one_site_disk_ok dbg o st : no_tensors R st N -> 0 < N -> (forall t, In t A -> odim o = d1 t) ->
  exists st', one_site_disk R r0 radd rmul conj qr disk dbg o st = Ok (st', ones o N) /\ no_tensors R st' N.
Proof.
  intros HS HN HO. unfold one_site_disk.
  assert (ME : mps_empty R st = true) by (unfold mps_empty; destruct HS as [-> _]; apply forallb_forall; intros x Hx; apply repeat_spec in Hx; subst x; auto).
  rewrite ME. replace (assert_ dbg true) with (Ok tt) by (destruct dbg; auto). cbn [bind].
  assert (LT : length (tens st) = N) by (destruct HS as [-> _]; apply repeat_length). rewrite LT. apply mem_none in HS.
  destruct (load_first st HS HN) as (st1 & t & E1 & M1 & C1). rewrite E1. cbn [bind].
  match goal with |- context [for_loop 0 ?n ?b ?s] => destruct (for_loop_inv _ (fun i (x : fmps * list (list nat * R)) => snd x = ones o i /\
    (if i <? N then exists B t, mem (single i t) (fst x) /\ chain B i t else mem none (fst x))) b n 0 s) as ((st' & out) & E & H1 & H2) end.
  - split; auto. destruct (Nat.ltb_spec 0 N); [|lia]. cbn [fst]. eauto.
  - intros i [st2 out] Hi (H1 & H2). cbn [fst snd] in *. subst out. destruct (Nat.ltb_spec i N); [|lia]. destruct H2 as (B & t' & M2 & C2).
    destruct (mem_at _ st2 i t' M2 ltac:(lia)) as (st3 & E3 & M3). { unfold single. rewrite Nat.eqb_refl. auto. }
    rewrite E3. cbn [bind]. destruct (nth_error A i) as [a|] eqn:Ea; [|apply nth_error_None in Ea; lia].
    rewrite (chain_one B i t' o C2) by (rewrite (chain_nth B i t' a C2 Ea); apply HO; eapply nth_error_In; eauto). cbn [bind].
    destruct (Nat.ltb_spec i (N - 1)) as [HL|HL].
    + destruct (move_step st3 B i t' dbg M3 C2 ltac:(lia)) as (st4 & B' & t4 & E4 & M4 & C4).
      destruct (load (i + 1) st3) as [st3a| |] eqn:EL; cbn [bind] in E4 |- *; try discriminate.
      destruct (lcan dbg i st3a) as [st3b| |] eqn:EC; cbn [bind] in E4 |- *; try discriminate. rewrite E4. cbn [bind]. eexists. split; [reflexivity|]. cbn [fst snd]. split; [rewrite ones_S; auto|].
      destruct (Nat.ltb_spec (S i) N); [|lia]. exists B', t4. rewrite <- Nat.add_1_r. auto.
    + cbn [bind]. destruct (mem_dealloc _ st3 i M3 ltac:(lia)) as (st4 & E4 & M4). rewrite E4. cbn [bind]. eexists. split; [reflexivity|]. cbn [fst snd]. split; [rewrite ones_S; auto|].
      destruct (Nat.ltb_spec (S i) N); [lia|]. apply (mem_ext _ _ _ M4). intros j Hj. unfold set, single, none. destruct (j =? i); auto.
  - cbn [fst snd Nat.add] in *. rewrite Nat.ltb_irrefl in H2. exists st'. split; [rewrite H1 in E; exact E|]. apply mem_none. auto.
Qed.

(** the measured values at the listed sites *)
Notation at_sites := (at_sites R r0 r1 radd rmul conj A ids).
Lemma nondec_nth : forall l i a b, nondecreasing l -> nth_error l i = Some a -> nth_error l (i + 1) = Some b -> a <= b.
Proof.
  induction l as [|x [|y l] IH]; intros [|i] a b H H1 H2; try discriminate; try (cbn in H2; destruct (i + 1); discriminate).
  - cbn in H1, H2. injection H1 as <-. injection H2 as <-. apply H. - eapply (IH i); [apply H|exact H1|exact H2].
Qed.
Lemma nondec_le : forall l i j a b, nondecreasing l -> i <= j -> nth_error l i = Some a -> nth_error l j = Some b -> a <= b.
Proof.
  intros l i j a b H HIJ Ha. revert b. induction HIJ as [|j HIJ IH]; intros b Hb; [rewrite Ha in Hb; injection Hb as <-; auto|].
  destruct (nth_error l j) as [c|] eqn:Ec.
  - specialize (IH c eq_refl). assert (c <= b) by (apply (nondec_nth l j); auto; rewrite Nat.add_1_r; auto). lia.
  - apply nth_error_None in Ec. assert (S j < length l) by (apply nth_error_Some; congruence). lia.
Qed.
Lemma avg_all_disk B k st t ops (P : lop -> list (list nat * R)) : mem (single k t) st -> chain B k t -> (forall o, In o ops -> odim o = d1 t) -> k < N ->
  exists st', avg_all R r0 radd rmul conj ops k (st, map P ops) = Ok (st', map (fun o => P o ++ [([k], expect A (upd ids k o))]) ops) /\ mem (single k t) st'.
Proof.
  intros HM HC HO HK. unfold avg_all.
  match goal with |- context [for_loop 0 ?n ?b ?s] => destruct (for_loop_inv _ (fun i (x : fmps * list (list (list nat * R))) => mem (single k t) (fst x) /\
    length (snd x) = length ops /\ forall j o, nth_error ops j = Some o -> nth_error (snd x) j = Some (if j <? i then P o ++ [([k], expect A (upd ids k o))] else P o)) b n 0 s) as ((st' & out) & E & H1 & H2 & H3) end.
  - split; auto. cbn [snd]. split; [apply map_length|]. intros j o Hj. rewrite nth_error_map, Hj. auto.
  - intros i [st1 out] Hi (H1 & H2 & H3). cbn [fst snd] in *. destruct (mem_touch _ st1 k H1 HK) as (st3 & E3 & C3). rewrite E3. cbn [bind].
    rewrite (mem_deref _ st3 k t C3 HK) by (unfold single; rewrite Nat.eqb_refl; auto). cbn [bind]. destruct (nth_error ops i) as [o|] eqn:Eo; [|apply nth_error_None in Eo; lia].
    unfold vget at 1. rewrite Eo. cbn [bind]. rewrite (chain_one B k t o HC) by (apply HO; eapply nth_error_In; eauto). cbn [bind].
    unfold vget. rewrite (H3 _ _ Eo). cbn [bind]. rewrite vset_ok by lia. cbn [bind]. eexists. split; [reflexivity|]. cbn [fst snd]. split; auto. split; [rewrite upd_length; auto|].
    intros j o' Hj. destruct (Nat.eq_dec j i) as [->|Ne].
    + rewrite nth_error_upd_same by lia. rewrite Eo in Hj. injection Hj as <-. destruct (Nat.ltb_spec i i); [lia|]. destruct (Nat.ltb_spec i (S i)); [auto|lia].
    + rewrite nth_error_upd_other by auto. rewrite (H3 _ _ Hj). destruct (Nat.ltb_spec j i), (Nat.ltb_spec j (S i)); auto; lia.
  - cbn [fst snd Nat.add] in *. exists st'. split; auto. etransitivity; [exact E|]. do 2 f_equal. apply nth_error_ext. intros j. rewrite nth_error_map.
    destruct (nth_error ops j) as [o|] eqn:Eo.
    + rewrite (H3 _ _ Eo). assert (j < length ops) by (apply nth_error_Some; congruence). destruct (Nat.ltb_spec j (length ops)); [auto|lia].
    + cbn. apply nth_error_None. apply nth_error_None in Eo. lia.
Qed.
Theorem one_sites_disk_ok dbg ops sites st : no_tensors R st N -> sites <> [] -> nondecreasing sites -> (forall s, In s sites -> s < N) -> (forall o t, In o ops -> In t A -> odim o = d1 t) ->
  exists st', one_sites_disk R r0 radd rmul conj qr disk dbg ops sites st = Ok (st', map (at_sites sites) ops) /\ no_tensors R st' N.
Proof.
  intros HS HE HD HN HO. unfold one_sites_disk. assert (N0 : 0 < N) by (destruct sites as [|s sites]; [congruence|]; specialize (HN s (or_introl eq_refl)); lia).
  apply mem_none in HS. destruct (load_first st HS N0) as (st1 & t & E1 & M1 & C1). rewrite E1. cbn [bind].
  match goal with |- context [for_loop 0 ?n ?b ?s] => destruct (for_loop_inv _ (fun i (x : fmps * list (list (list nat * R))) => snd x = map (at_sites (firstn i sites)) ops /\
    exists p B t, (if i =? 0 then p = 0 else nth_error sites (i - 1) = Some p) /\ mem (single p t) (fst x) /\ chain B p t) b n 0 s) as ((st' & out) & E & H1 & p & B & t' & H2 & H3 & H4) end.
  - split; [cbn [snd firstn]; unfold at_sites; cbn; clear; induction ops; cbn; f_equal; auto|]. exists 0, A, t. cbn [fst]. split; [reflexivity|]. split; auto.
  - intros i [st2 out] Hi (H1 & p & B & t' & H2 & H3 & H4). cbn [fst snd] in *. subst out. destruct (nth_error sites i) as [s|] eqn:Es; [|apply nth_error_None in Es; lia]. unfold vget at 1. rewrite Es. cbn [bind].
    assert (EP : (if i =? 0 then Ok 0 else vget sites (i - 1)) = Ok p /\ p <= s).
    { destruct (Nat.eqb_spec i 0); [subst; split; [auto|lia]|]. unfold vget. rewrite H2. split; auto. eapply (nondec_nth sites (i - 1)); eauto. replace (i - 1 + 1) with i by lia. auto. }
    destruct EP as [EP HP]. rewrite EP. cbn [bind]. assert (SN : s < N) by (apply HN; eapply nth_error_In; eauto).
    destruct (move_center_ok dbg p s st2 B t' H3 H4 ltac:(lia)) as (st3 & B3 & t3 & E3 & M3 & C3). rewrite E3. cbn [bind].
    destruct (nth_error A s) as [a|] eqn:Ea; [|apply nth_error_None in Ea; lia].
    destruct (avg_all_disk B3 s st3 t3 ops (at_sites (firstn i sites)) M3 C3) as (st4 & E4 & M4); auto.
    { intros o Ho. rewrite (chain_nth B3 s t3 a C3 Ea). apply HO; auto. eapply nth_error_In; eauto. }
    eexists. split; [exact E4|]. cbn [fst snd]. split.
    + apply map_ext. intros o. rewrite (firstn_snoc _ _ _ _ Es). unfold at_sites. rewrite map_app. auto.
    + exists s, B3, t3. cbn [Nat.eqb]. replace (S i - 1) with i by lia. auto.
  - cbn [fst snd Nat.add] in *. rewrite E. cbn [bind]. destruct (length sites) as [|m] eqn:EL; [destruct sites; [congruence|discriminate]|]. cbn [Nat.eqb] in H2. replace (S m - 1) with m in H2 by lia. unfold vget. rewrite H2. cbn [bind].
    assert (PN : p < N) by (apply HN; eapply nth_error_In; eauto).
    destruct (mem_dealloc _ st' p H3 PN) as (st2 & E2 & M2). cbn [fst snd]. rewrite E2. cbn [bind]. exists st2. split.
    + rewrite H1. rewrite firstn_all2 by lia. auto.
    + apply mem_none. apply (mem_ext _ _ _ M2). intros i Hi. unfold set, single, none. destruct (i =? p); auto.
Qed.
Theorem all_sites_disk_ok dbg ops st : no_tensors R st N -> 0 < N -> (forall o t, In o ops -> In t A -> odim o = d1 t) ->
  exists st', all_sites_disk R r0 radd rmul conj qr disk dbg ops st = Ok (st', map (at_sites (seq 0 N)) ops) /\ no_tensors R st' N.
Proof.
  intros HS HN HO. unfold all_sites_disk. replace (length (tens st)) with N by (destruct HS as [-> _]; symmetry; apply repeat_length). apply one_sites_disk_ok; auto.
  - intros E. apply (f_equal (@length _)) in E. rewrite seq_length in E. cbn in E. lia. - generalize 0. generalize N. induction n as [|[|n] IH]; intros k; cbn [seq nondecreasing]; auto. split; [lia|]. apply IH. - intros s Hs. apply in_seq in Hs. lia.
Qed.

(** ** Strings *)
Notation string := (string R ids).
Lemma ids_N : length ids = N.
Proof. symmetry. eapply Forall2_len; eauto. Qed.
Lemma string_0 inst s : string inst s (s + 1) = [].
Proof. unfold MeasureSpec.string. replace (s + 1 - s - 1) with 0 by lia. destruct inst; auto. Qed.
Lemma repeat_snoc T (x : T) n : repeat x (S n) = repeat x n ++ [x].
Proof. induction n; cbn in *; auto. f_equal. auto. Qed.
Lemma string_S inst s e ido : s <= e -> nth_error ids (e + 1) = Some ido -> string inst s (e + 1 + 1) = string inst s (e + 1) ++ [match inst with Some o => o | None => ido end].
Proof.
  intros H Hi. unfold MeasureSpec.string. replace (e + 1 + 1 - s - 1) with (S (e + 1 - s - 1)) by lia. destruct inst as [o|].
  - apply repeat_snoc.
  - apply firstn_snoc. rewrite nth_skipn. rewrite <- Hi. f_equal. lia.
Qed.
Lemma string_len inst s s' : s < s' -> s' <= N -> length (string inst s s') = s' - s - 1.
Proof. intros H H'. unfold MeasureSpec.string. pose proof ids_N. destruct inst; [apply repeat_length|]. rewrite firstn_length, skipn_length. lia. Qed.
Notation fits_all := (fits_all R A).
Definition fits_opt (inst : option lop) : Prop := match inst with Some o => fits_all o | None => True end.
Lemma fits_nth inst k t ido : fits_opt inst -> nth_error A k = Some t -> nth_error ids k = Some ido -> odim (match inst with Some o => o | None => ido end) = d1 t.
Proof. intros H Ht Hi. destruct inst as [o|]; [apply H; eapply nth_error_In; eauto|]. exact (proj1 (Forall2_nth _ _ _ _ _ _ _ _ HI Ht Hi)). Qed.
Lemma chain_behind B s t k : chain B s t -> s < k -> nth_error B k = nth_error A k.
Proof. intros (_ & _ & _ & H) Hk. pose proof (nth_skipn _ B (s + 1) (k - (s + 1))) as E. rewrite H, nth_skipn in E. replace (s + 1 + (k - (s + 1))) with k in E by lia. auto. Qed.

Notation mid_site := (mid_site R r0 radd rmul conj op_eqb).
Notation mid_disk := (mid_disk R r0 radd rmul conj op_eqb disk).
Notation eaten := (eaten R r0 r1 radd rmul conj).
Lemma get_A k : k < N -> exists t, nth_error A k = Some t.
Proof. intros H. destruct (nth_error A k) eqn:E; eauto. apply nth_error_None in E. lia. Qed.
Lemma get_id k : k < N -> exists o, nth_error ids k = Some o.
Proof. intros H. destruct (nth_error ids k) eqn:E; eauto. apply nth_error_None in E. pose proof ids_N. lia. Qed.
Lemma in_A k t : nth_error A k = Some t -> In t A.
Proof. apply nth_error_In. Qed.
Lemma chain_mid B s t e om x a o ido : chain B s t -> eaten B s e om x -> nth_error A (e + 1) = Some a -> nth_error ids (e + 1) = Some ido -> odim o = d1 a ->
  exists x', mid_site a o ido x = Ok x' /\ eaten B s (e + 1) (om ++ [o]) x'.
Proof.
  intros HC HE Ha Hi HO. apply (eat_mid R r0 r1 radd rmul rsub ropp Rth conj op_eqb op_eqb_sound B ids (chain_fit _ _ _ HC) (chain_ids _ _ _ HC) s e om x a o ido HE); auto.
  rewrite (chain_behind B s t) by (auto; destruct HE; lia). auto.
Qed.
Lemma mid_disk_ok B s t e om st x o ido : mem none st -> chain B s t -> eaten B s e om x -> nth_error ids (e + 1) = Some ido -> e + 1 < N ->
  (forall a, nth_error A (e + 1) = Some a -> odim o = d1 a) ->
  exists st' x', mid_disk (e + 1) o ido (st, x) = Ok (st', x') /\ mem none st' /\ eaten B s (e + 1) (om ++ [o]) x'.
Proof.
  intros HM HC HE Hi HN HO. destruct (get_A _ HN) as (a & Ha). unfold Measure.mid_disk. cbn [fst snd]. destruct (mem_load _ st (e + 1) a HM Ha) as (st1 & E1 & M1). rewrite E1. cbn [bind].
  rewrite (mem_deref _ st1 (e + 1) a M1 HN) by (unfold set; rewrite Nat.eqb_refl; auto). cbn [bind].
  destruct (chain_mid B s t e om x a o ido HC HE Ha Hi (HO a Ha)) as (x' & E2 & HE'). rewrite E2. cbn [bind]. destruct (mem_dealloc _ st1 (e + 1) M1 HN) as (st2 & E3 & M2). rewrite E3. cbn [bind].
  exists st2, x'. split; auto. split; auto. apply (mem_ext _ _ _ M2). intros i Hn. unfold set, none. destruct (i =? e + 1); auto.
Qed.
(** eating a string; [p] is the site before the string *)
Lemma eat_string B s t inst p om : chain B s t -> s <= p -> fits_opt inst -> forall e e' st x, p <= e -> e <= e' -> e' < N -> mem none st -> eaten B s e (om ++ string inst p (e + 1)) x ->
  exists st' x', for_loop (e + 1) (e' - e) (fun k y => let! ido := vget ids k in mid_disk k (match inst with Some o => o | None => ido end) ido y) (st, x) = Ok (st', x') /\
    mem none st' /\ eaten B s e' (om ++ string inst p (e' + 1)) x'.
Proof.
  intros HC HP HF e e' st x H1 H2 H3 HM HE.
  match goal with |- context [for_loop (e + 1) ?n ?b ?s0] => destruct (for_loop_inv _ (fun i (y : fmps * temp R) => e + 1 <= i /\ mem none (fst y) /\ eaten B s (i - 1) (om ++ string inst p i) (snd y)) b n (e + 1) s0) as ((st' & x') & E & G1 & G2 & G3) end.
  - split; [lia|]. split; auto. replace (e + 1 - 1) with e by lia. auto.
  - intros i [st1 x1] Hi (I1 & I2 & I3). cbn [fst snd] in *. destruct (get_id i ltac:(lia)) as (ido & Ei). unfold vget. rewrite Ei. cbn [bind].
    replace i with (i - 1 + 1) in Ei by lia.
    destruct (mid_disk_ok B s t (i - 1) _ st1 x1 (match inst with Some o => o | None => ido end) ido I2 HC I3 Ei ltac:(lia)) as (st2 & x2 & E2 & M2 & HE2).
    { intros a Ha. eapply fits_nth; eauto. }
    replace (i - 1 + 1) with i in E2, HE2 by lia. exists (st2, x2). split; auto. split; [lia|]. cbn [fst snd]. split; auto. replace (S i - 1) with i by lia.
    replace (S i) with (i - 1 + 1 + 1) by lia. rewrite (string_S inst p (i - 1) ido) by (auto; lia). replace (i - 1 + 1) with i by lia. rewrite app_assoc. auto.
  - cbn [fst snd] in *. exists st', x'. split; auto. split; auto. replace (e + 1 + (e' - e)) with (e' + 1) in G3 by lia. replace (e' + 1 - 1) with e' in G3 by lia. auto.
Qed.
Lemma chain_tail B s t e om x a o : chain B s t -> eaten B s e om x -> nth_error A (e + 1) = Some a -> odim o = d1 a ->
  tail_site R r0 radd rmul conj a o x = Ok (expect A (spread R ids s (om ++ [o]))).
Proof.
  intros HC HE Ha HO. pose proof HC as (C1 & C2 & C3 & C4). rewrite <- (same_expect R r0 r1 radd rmul conj A B _ C2).
  assert (S1 : s <= e) by (destruct HE; auto).
  rewrite (eat_tail R r0 r1 radd rmul rsub ropp Rth conj conj_0 conj_1 conj_add conj_mul B ids (chain_fit _ _ _ HC) (chain_ids _ _ _ HC) s e om x a o HE); auto.
  - f_equal. f_equal. unfold spread. f_equal. f_equal. f_equal. destruct HE as (_ & t0 & t1 & E1 & E2 & (_ & E4 & _) & _). rewrite app_length, E4, seg_len; auto.
    + cbn. lia. + apply nth_error_Some. congruence.
  - rewrite (chain_behind B s t) by (auto; lia). auto.
  - eapply chain_right; eauto.
Qed.

(** two-site operators *)
Theorem two_site_disk_ok dbg o1 o2 s1 site2s inst st : no_tensors R st N -> s1 < N -> fits_all o1 -> fits_all o2 -> fits_opt inst ->
  nondecreasing site2s -> (forall s, In s site2s -> s1 < s < N) ->
  exists st' out, two_site_disk R r0 radd rmul conj qr op_eqb ids disk dbg o1 o2 s1 site2s inst st = Ok (st', out) /\ no_tensors R st' N /\
    Forall2 (fun s2 (r : list nat * R) => exists os, placed R ids [s1; s2] [o1; o2] [string inst s1 s2] os /\ r = ([s1; s2], expect A os)) site2s out.
Proof.
  intros HS H1 F1 F2 FI HD HN. unfold two_site_disk. apply mem_none in HS. destruct (load_first st HS ltac:(lia)) as (st1 & t & E1 & M1 & C1). rewrite E1. cbn [bind].
  destruct (move_center_ok dbg 0 s1 st1 A t M1 C1 ltac:(lia)) as (st2 & B & t2 & E2 & M2 & C2). rewrite E2. cbn [bind].
  destruct (mem_at _ st2 s1 t2 M2 H1) as (st3 & E3 & M3). { unfold single. rewrite Nat.eqb_refl. auto. } rewrite E3. cbn [bind].
  destruct (get_A s1 H1) as (a1 & Ea1).
  destruct (eat_head R r0 r1 radd rmul rsub ropp Rth conj B s1 t2 o1) as (x & EX & HX). { apply C2. } { rewrite (chain_nth B s1 t2 a1 C2 Ea1). symmetry. apply F1. eapply in_A; eauto. }
  rewrite EX. cbn [bind]. destruct (mem_dealloc _ st3 s1 M3 H1) as (st4 & E4 & M4). rewrite E4. cbn [bind].
  assert (M5 : mem none st4) by (apply (mem_ext _ _ _ M4); intros i Hi; unfold set, single, none; destruct (i =? s1); auto).
  assert (HX' : eaten B s1 s1 ([o1] ++ string inst s1 (s1 + 1)) x) by (rewrite string_0; auto).
  clear st1 st2 st3 E1 E2 E3 E4 EX HX M1 M2 M3 M4 HS.
  assert (G : forall l e st x acc, s1 <= e < N -> nondecreasing l -> (forall s, In s l -> s1 < s < N /\ e <= s - 1) -> mem none st -> eaten B s1 e ([o1] ++ string inst s1 (e + 1)) x ->
    exists st' x' e' out, for_each l (fun site2 (z : (fmps * temp R) * nat * list (list nat * R)) =>
      let '(y, eaten, out) := z in
      if site2 =? 0 then Ub else
      let! y := for_loop (eaten + 1) (site2 - 1 - eaten) (fun k y => let! ido := vget ids k in mid_disk k (match inst with Some o => o | None => ido end) ido y) y in
      let eaten := Nat.max eaten (site2 - 1) in
      let! st := load site2 (fst y) in let! (st, t) := at_ R site2 st in let! a := tail_site R r0 radd rmul conj t o2 (snd y) in
      let! st := dealloc R site2 st in Ok ((st, snd y), eaten, out ++ [([s1; site2], a)])) ((st, x), e, acc) = Ok ((st', x'), e', acc ++ out) /\ mem none st' /\
      Forall2 (fun s2 (r : list nat * R) => exists os, placed R ids [s1; s2] [o1; o2] [string inst s1 s2] os /\ r = ([s1; s2], expect A os)) l out).
  { induction l as [|s2 l IH]; intros e st0 x0 acc He Hd Hl HM HE.
    - exists st0, x0, e, []. cbn [for_each]. rewrite app_nil_r. auto.
    - cbn [for_each]. destruct (Hl s2 (or_introl eq_refl)) as (B1 & B2). destruct (Nat.eqb_spec s2 0); [lia|].
      destruct (eat_string B s1 t2 inst s1 [o1] C2 (le_n _) FI e (s2 - 1) st0 x0 ltac:(lia) B2 ltac:(lia) HM HE) as (st1 & x1 & E1 & M1 & HE1). rewrite E1. cbn [bind fst snd].
      destruct (get_A s2 ltac:(lia)) as (a & Ea). destruct (mem_load _ st1 s2 a M1 Ea) as (st2 & E2 & M2). rewrite E2. cbn [bind].
      destruct (mem_at _ st2 s2 a M2 ltac:(lia)) as (st3 & E3 & M3). { unfold set. rewrite Nat.eqb_refl. auto. } rewrite E3. cbn [bind].
      rewrite (chain_tail B s1 t2 (s2 - 1) _ x1 a o2 C2 HE1) by (try apply F2; try eapply in_A; eauto; replace (s2 - 1 + 1) with s2 by lia; auto). cbn [bind].
      destruct (mem_dealloc _ st3 s2 M3 ltac:(lia)) as (st4' & E4 & M4'). rewrite E4. cbn [bind]. replace (Nat.max e (s2 - 1)) with (s2 - 1) by lia.
      destruct (IH (s2 - 1) st4' x1 (acc ++ [([s1; s2], expect A (spread R ids s1 (([o1] ++ string inst s1 (s2 - 1 + 1)) ++ [o2])))])) as (st' & x' & e' & out & E5 & M6 & HF); auto; try lia.
      { destruct l; [exact I|apply Hd]. }
      { intros s Hs. destruct (Hl s (or_intror Hs)). split; auto. assert (s2 <= s); [|lia]. clear -Hd Hs. revert s2 Hd. induction l as [|b l IHl]; intros s2 Hd; [contradiction|]. destruct Hd as [D1 D2]. destruct Hs as [->|Hs]; auto. specialize (IHl Hs b D2). lia. }
      { apply (mem_ext _ _ _ M4'). intros i Hi. unfold set, none. destruct (i =? s2); auto. }
      eexists st', x', e', (_ :: out). split; [etransitivity; [exact E5|]; rewrite <- app_assoc; reflexivity|]. split; auto. constructor; auto.
      eexists. split; [|reflexivity]. replace (s2 - 1 + 1) with s2 by lia. replace (([o1] ++ string inst s1 s2) ++ [o2]) with (weave R [o1; o2] [string inst s1 s2]) by (cbn; auto).
      apply placed_spread; auto.
      + cbn. split; auto. rewrite string_len by lia. lia.
      + cbn. rewrite ids_N. lia. }
  destruct (G site2s s1 st4 x []) as (st' & x' & e' & out & E & M & HF); auto; try lia.
  { intros s Hs. specialize (HN s Hs). lia. }
  match goal with |- context [for_each site2s ?b ?s0] => replace (for_each site2s b s0) with (Ok ((st', x'), e', out)) by (symmetry; exact E) end.
  cbn [bind fst]. exists st', out. split; auto. split; auto. apply mem_none. auto.
Qed.
Theorem two_all_disk_ok dbg o1 o2 s1 inst st : no_tensors R st N -> s1 < N -> fits_all o1 -> fits_all o2 -> fits_opt inst ->
  exists st' out, two_all_disk R r0 radd rmul conj qr op_eqb ids disk dbg o1 o2 s1 inst st = Ok (st', out) /\ no_tensors R st' N /\
    Forall2 (fun s2 (r : list nat * R) => exists os, placed R ids [s1; s2] [o1; o2] [string inst s1 s2] os /\ r = ([s1; s2], expect A os)) (seq (s1 + 1) (N - (s1 + 1))) out.
Proof.
  intros HS H1 F1 F2 FI. unfold two_all_disk. replace (length (tens st)) with N by (destruct HS as [-> _]; symmetry; apply repeat_length). apply two_site_disk_ok; auto.
  - generalize (N - (s1 + 1)). generalize (s1 + 1). intros k n. revert k. induction n as [|[|n] IH]; intros k; cbn [seq nondecreasing]; auto. split; [lia|]. apply IH. - intros s Hs. apply in_seq in Hs. lia.
Qed.

(** four-site operators: which slots are occupied *)
Definition held (occ : nat -> bool) (i : nat) : option ten := if occ i then nth_error A i else None.
Lemma held_load occ st i : mem (held occ) st -> i < N -> exists st', load i st = Ok st' /\ mem (held (fun j => (j =? i) || occ j)) st'.
Proof.
  intros HM Hi. destruct (get_A i Hi) as (a & Ea). destruct (mem_load _ st i a HM Ea) as (st' & E & M). exists st'. split; auto. apply (mem_ext _ _ _ M).
  intros j Hj. unfold set, held. destruct (Nat.eqb_spec j i) as [->|]; cbn [orb]; auto.
Qed.
Lemma held_dealloc occ st i : mem (held occ) st -> i < N -> exists st', dealloc R i st = Ok st' /\ mem (held (fun j => negb (j =? i) && occ j)) st'.
Proof.
  intros HM Hi. destruct (mem_dealloc _ st i HM Hi) as (st' & E & M). exists st'. split; auto. apply (mem_ext _ _ _ M).
  intros j Hj. unfold set, held. destruct (Nat.eqb_spec j i) as [->|]; cbn [negb andb]; auto.
Qed.
Lemma held_ext occ occ' st : mem (held occ) st -> (forall i, i < N -> occ i = occ' i) -> mem (held occ') st.
Proof. intros H E. apply (mem_ext _ _ _ H). intros i Hi. unfold held. rewrite E; auto. Qed.
Lemma held_none occ st : (forall i, i < N -> occ i = false) -> mem (held occ) st <-> mem none st.
Proof. intros H. split; intros HM; apply (mem_ext _ _ _ HM); intros i Hi; unfold held, none; rewrite H; auto. Qed.
Lemma held_empty occ st : mem (held occ) st -> mps_empty R st = true <-> forall i, i < N -> occ i = false.
Proof.
  intros (H1 & H2 & H3). unfold mps_empty. rewrite forallb_forall. split.
  - intros H i Hi. specialize (H3 i Hi). specialize (H _ (nth_error_In _ _ H3)). unfold held in H. destruct (occ i); auto. destruct (get_A i Hi) as (a & ->) in H. discriminate.
  - intros H p Hp. apply In_nth_error in Hp. destruct Hp as (i & Hi). assert (i < N) by (rewrite <- H1; apply nth_error_Some; congruence). rewrite H3 in Hi by auto. injection Hi as <-. unfold held. rewrite H; auto.
Qed.
Lemma app_string_snoc om inst p e ido : p <= e -> nth_error ids (e + 1) = Some ido -> (om ++ string inst p (e + 1)) ++ [match inst with Some o => o | None => ido end] = om ++ string inst p (e + 1 + 1).
Proof. intros H Hi. rewrite (string_S inst p e ido) by auto. rewrite app_assoc. auto. Qed.

Section Four.
Variables (dbg : bool) (B : list ten) (r0' : nat) (tb : ten).
Hypothesis HC : chain B r0' tb.
(** LeftTempTen::MoveTo *)
Lemma move_to_ok p om site idx st x occ : r0' <= p -> p <= idx -> idx <= site -> site < N -> mem (held occ) st -> eaten B r0' idx (om ++ string None p (idx + 1)) x ->
  exists st' x', move_to R r0 radd rmul conj op_eqb ids disk dbg site (st, x, idx) = Ok (st', x', site) /\
    mem (held (fun i => ((i <=? idx) || (site <? i)) && occ i)) st' /\ eaten B r0' site (om ++ string None p (site + 1)) x'.
Proof.
  intros H1 H2 H3 H4 HM HE. unfold move_to. rewrite (proj2 (Nat.leb_le _ _) H3). replace (assert_ dbg true) with (Ok tt) by (destruct dbg; auto). cbn [bind].
  match goal with |- context [for_loop (idx + 1) ?n ?b ?s0] => destruct (for_loop_inv _ (fun i (y : fmps * temp R) => idx + 1 <= i /\
    mem (held (fun j => ((j <=? idx) || (i - 1 <? j)) && occ j)) (fst y) /\ eaten B r0' (i - 1) (om ++ string None p i) (snd y)) b n (idx + 1) s0) as ((st' & x') & E & G1 & G2 & G3) end.
  - split; [lia|]. replace (idx + 1 - 1) with idx by lia. cbn [fst snd]. split; auto. apply (held_ext _ _ _ HM). intros i Hi. destruct (Nat.leb_spec i idx), (Nat.ltb_spec idx i); auto; lia.
  - intros i [st1 x1] Hi (I1 & I2 & I3). cbn [fst snd] in *. destruct (mem_touch _ st1 i I2 ltac:(lia)) as (st2 & E2 & M2). rewrite E2. cbn [bind].
    destruct (get_A i ltac:(lia)) as (a & Ea). destruct (get_id i ltac:(lia)) as (ido & Ei).
    assert (L : exists st3, (let! p := vget (tens st2) i in match p with None => load i st2 | Some _ => Ok st2 end) = Ok st3 /\ mem (held (fun j => (j =? i) || (((j <=? idx) || (i - 1 <? j)) && occ j))) st3).
    { unfold vget. destruct M2 as (L1 & L2 & L3). rewrite L3 by lia. cbn [bind]. destruct (held _ i) as [a'|] eqn:EH.
      - exists st2. split; auto. apply (held_ext (fun j => ((j <=? idx) || (i - 1 <? j)) && occ j)); [split; auto|]. intros j Hj. destruct (Nat.eqb_spec j i) as [->|]; cbn [orb]; auto. unfold held in EH. destruct (_ && occ i); [auto|discriminate].
      - destruct (held_load _ st2 i ltac:(split; [exact L1|split; [exact L2|exact L3]]) ltac:(lia)) as (st3 & E3 & M3). eauto. }
    destruct L as (st3 & E3 & M3). destruct (vget (tens st2) i) as [q| |]; cbn [bind] in E3 |- *; try discriminate. rewrite E3. cbn [bind].
    unfold vget. rewrite Ei. cbn [bind]. rewrite (mem_deref _ st3 i a M3) by (try lia; unfold held; rewrite Nat.eqb_refl; auto). cbn [bind].
    replace i with (i - 1 + 1) in Ea, Ei by lia.
    destruct (chain_mid B r0' tb (i - 1) _ x1 a ido ido HC I3 Ea Ei) as (x2 & EX & HX). { exact (fits_nth None _ _ _ I Ea Ei). } rewrite EX. cbn [bind].
    destruct (held_dealloc _ st3 i M3 ltac:(lia)) as (st4 & E4 & M4). rewrite E4. cbn [bind]. eexists. split; [reflexivity|]. cbn [fst snd]. replace (S i - 1) with i by lia. split; [lia|]. split.
    + apply (held_ext _ _ _ M4). intros j Hj. destruct (Nat.eqb_spec j i) as [->|]; cbn [negb andb orb].
      * destruct (Nat.leb_spec i idx), (Nat.ltb_spec i i); auto; lia.
      * destruct (Nat.leb_spec j idx), (Nat.ltb_spec (i - 1) j), (Nat.ltb_spec i j); cbn [orb andb]; auto; lia.
    + pose proof (app_string_snoc om None p (i - 1) ido ltac:(lia) Ei) as ES. replace (i - 1 + 1) with i in * by lia. rewrite ES in HX. replace (S i) with (i + 1) by lia. auto.
  - cbn [fst snd] in *. rewrite E. cbn [bind]. exists st', x'. split; auto. replace (idx + 1 + (site - idx)) with (site + 1) in * by lia. replace (site + 1 - 1) with site in * by lia. auto.
Qed.

Variables (r1' : nat) (om : list lop) (ins o2 o3 : lop) (ref0 ref1 : nat).
Hypothesis HR : r0' <= r1'.
Hypothesis Fins : fits_all ins.
Hypothesis Fo2 : fits_all o2.
Hypothesis Fo3 : fits_all o3.
Definition covered (l : list (nat * nat)) (i : nat) : bool := existsb (fun tt => (fst tt <=? i) && (i <=? snd tt)) l.
Lemma covered_snoc l tt i : covered (l ++ [tt]) i = covered l i || ((fst tt <=? i) && (i <=? snd tt)).
Proof. unfold covered. rewrite existsb_app. cbn. rewrite orb_false_r. auto. Qed.
Definition target_body (tt : nat * nat) (z : fmps * temp R * nat * list (list nat * R)) : res (fmps * temp R * nat * list (list nat * R)) :=
    let (t0, t1) := tt in let (y, out) := z in
    if t0 =? 0 then Ub else
    let! y := move_to R r0 radd rmul conj op_eqb ids disk dbg (t0 - 1) y in
    let '(st, keep, idx) := y in
    let! st := load t0 st in let! ido := vget ids t0 in let! t := deref R st t0 in let! x := mid_site t o2 ido keep in
    let! (st, x) := for_loop (t0 + 1) (t1 - (t0 + 1)) (fun i (y : fmps * temp R) =>
      let! st := load i (fst y) in let! ido := vget ids i in let! t := deref R st i in let! x := mid_site t ins ido (snd y) in Ok (st, x)) (st, x) in
    let! st := load t1 st in let! (st, t) := at_ R t1 st in let! a := tail_site R r0 radd rmul conj t o3 x in
    Ok ((st, keep, idx), out ++ [([ref0; ref1; t0; t1], a)]).
Lemma target_ok t0 t1 idx done st x acc : r1' <= idx -> idx + 1 <= t0 -> t0 < t1 -> t1 < N -> mem (held (fun i => (idx <? i) && covered done i)) st ->
  eaten B r0' idx (om ++ string None r1' (idx + 1)) x ->
  exists st' x', target_body (t0, t1) (st, x, idx, acc) =
    Ok (st', x', t0 - 1, acc ++ [([ref0; ref1; t0; t1], expect A (spread R ids r0' (((om ++ string None r1' t0) ++ o2 :: string (Some ins) t0 t1) ++ [o3])))]) /\
    mem (held (fun i => (t0 - 1 <? i) && covered (done ++ [(t0, t1)]) i)) st' /\ eaten B r0' (t0 - 1) (om ++ string None r1' (t0 - 1 + 1)) x'.
Proof.
  intros H1 H2 H3 H4 HM HE. unfold target_body. destruct (Nat.eqb_spec t0 0); [lia|].
  destruct (move_to_ok r1' om (t0 - 1) idx st x _ HR H1 ltac:(lia) ltac:(lia) HM HE) as (st1 & x1 & E1 & M1 & HE1). rewrite E1. cbn [bind].
  destruct (held_load _ st1 t0 M1 ltac:(lia)) as (st2 & E2 & M2). rewrite E2. cbn [bind]. destruct (get_id t0 ltac:(lia)) as (ido & Ei). unfold vget at 1. rewrite Ei. cbn [bind].
  destruct (get_A t0 ltac:(lia)) as (a & Ea). rewrite (mem_deref _ st2 t0 a M2) by (try lia; unfold held; rewrite Nat.eqb_refl; auto). cbn [bind].
  replace t0 with (t0 - 1 + 1) in Ea, Ei by lia.
  destruct (chain_mid B r0' tb (t0 - 1) _ x1 a o2 ido HC HE1 Ea Ei) as (x2 & EX & HX). { apply Fo2. eapply in_A; eauto. } rewrite EX. cbn [bind].
  match goal with |- context [for_loop (t0 + 1) ?n ?b ?s0] => destruct (for_loop_inv _ (fun i (y : fmps * temp R) => t0 + 1 <= i /\
    mem (held (fun j => ((t0 <=? j) && (j <? i)) || (((j <=? idx) || (t0 - 1 <? j)) && ((idx <? j) && covered done j)))) (fst y) /\
    eaten B r0' (i - 1) ((om ++ string None r1' t0) ++ o2 :: string (Some ins) t0 i) (snd y)) b n (t0 + 1) s0) as ((st3 & x3) & E3 & G1 & G2 & G3) end.
  - split; [lia|]. cbn [fst snd]. split.
    + apply (held_ext _ _ _ M2). intros j Hj. f_equal. destruct (Nat.eqb_spec j t0), (Nat.leb_spec t0 j), (Nat.ltb_spec j (t0 + 1)); cbn; auto; lia.
    + rewrite string_0. replace (t0 + 1 - 1) with (t0 - 1 + 1) by lia. replace (t0 - 1 + 1) with t0 in * by lia. auto.
  - intros i [st3 x3] Hi (I1 & I2 & I3). cbn [fst snd] in *. destruct (held_load _ st3 i I2 ltac:(lia)) as (st4 & E4 & M4). rewrite E4. cbn [bind].
    destruct (get_A i ltac:(lia)) as (b & Eb). destruct (get_id i ltac:(lia)) as (idb & Eib). unfold vget. rewrite Eib. cbn [bind].
    rewrite (mem_deref _ st4 i b M4) by (try lia; unfold held; rewrite Nat.eqb_refl; auto). cbn [bind]. replace i with (i - 1 + 1) in Eb, Eib by lia.
    destruct (chain_mid B r0' tb (i - 1) _ x3 b ins idb HC I3 Eb Eib) as (x4 & EX4 & HX4). { apply Fins. eapply in_A; eauto. } rewrite EX4. cbn [bind]. eexists. split; [reflexivity|]. cbn [fst snd].
    split; [lia|]. replace (S i - 1) with (i - 1 + 1) by lia. split.
    + apply (held_ext _ _ _ M4). intros j Hj. destruct (Nat.eqb_spec j i), (Nat.leb_spec t0 j), (Nat.ltb_spec j i), (Nat.ltb_spec j (S i)); cbn [orb andb]; auto; lia.
    + rewrite <- app_assoc in HX4. cbn [app] in HX4. pose proof (string_S (Some ins) t0 (i - 1) idb ltac:(lia) Eib) as ES. cbn beta iota in ES. replace (S i) with (i - 1 + 1 + 1) by lia. rewrite ES. replace (i - 1 + 1) with i in * by lia. auto.
  - cbn [fst snd] in *. rewrite E3. cbn [bind]. replace (t0 + 1 + (t1 - (t0 + 1))) with t1 in * by lia.
    destruct (held_load _ st3 t1 G2 ltac:(lia)) as (st4 & E4 & M4). rewrite E4. cbn [bind]. destruct (get_A t1 ltac:(lia)) as (b & Eb).
    destruct (mem_at _ st4 t1 b M4 ltac:(lia)) as (st5 & E5 & M5). { unfold held. rewrite Nat.eqb_refl. auto. } rewrite E5. cbn [bind].
    replace t1 with (t1 - 1 + 1) in Eb by lia. rewrite (chain_tail B r0' tb (t1 - 1) _ x3 b o3 HC G3 Eb) by (apply Fo3; eapply in_A; eauto). cbn [bind].
    exists st5, x1. split; auto. split; auto. apply (held_ext _ _ _ M5). intros j Hj. rewrite covered_snoc. cbn [fst snd].
    destruct (Nat.eqb_spec j t1), (Nat.leb_spec t0 j), (Nat.ltb_spec j t1), (Nat.leb_spec j idx), (Nat.ltb_spec (t0 - 1) j), (Nat.ltb_spec idx j), (Nat.leb_spec j t1); cbn [orb andb]; try lia; destruct (covered done j); auto.
Qed.
Lemma targets_ok : forall l done idx st x acc, r1' <= idx -> nondecreasing (map fst l) -> (forall t0 t1, In (t0, t1) l -> idx + 1 <= t0 /\ t0 < t1 /\ t1 < N) ->
  mem (held (fun i => (idx <? i) && covered done i)) st -> eaten B r0' idx (om ++ string None r1' (idx + 1)) x ->
  exists st' x' out, for_each l target_body (st, x, idx, acc) = Ok (st', x', last (map fst l) (idx + 1) - 1, acc ++ out) /\
    mem (held (fun i => (last (map fst l) (idx + 1) - 1 <? i) && covered (done ++ l) i)) st' /\
    Forall2 (fun (tt : nat * nat) (r : list nat * R) => r = ([ref0; ref1; fst tt; snd tt], expect A (spread R ids r0' (((om ++ string None r1' (fst tt)) ++ o2 :: string (Some ins) (fst tt) (snd tt)) ++ [o3])))) l out.
Proof.
  induction l as [|[t0 t1] l IH]; intros done idx st x acc H1 HD HL HM HE.
  - exists st, x, []. cbn [for_each map last]. rewrite !app_nil_r. replace (idx + 1 - 1) with idx by lia. auto.
  - destruct (HL t0 t1 (or_introl eq_refl)) as (L1 & L2 & L3). destruct (target_ok t0 t1 idx done st x acc H1 L1 L2 L3 HM HE) as (st1 & x1 & E1 & M1 & HE1). cbn [for_each]. rewrite E1. cbn [bind].
    destruct (IH (done ++ [(t0, t1)]) (t0 - 1) st1 x1 (acc ++ [([ref0; ref1; t0; t1], expect A (spread R ids r0' (((om ++ string None r1' t0) ++ o2 :: string (Some ins) t0 t1) ++ [o3])))])) as (st' & x' & out & E & M & HF); auto; try lia.
    { cbn [map fst] in HD. destruct (map fst l); [exact I|apply HD]. }
    { intros a b Hab. destruct (HL a b (or_intror Hab)) as (K1 & K2 & K3). split; auto. assert (t0 <= a); [|lia]. apply (in_map fst) in Hab. cbn [fst] in Hab. clear - HD Hab. cbn [map fst] in HD. revert t0 HD. induction (map fst l) as [|c m IHm]; intros t0 HD; [contradiction|]. destruct HD as [D1 D2]. destruct Hab as [->|Hab]; auto. specialize (IHm Hab c D2). lia. }
    assert (EL : last (map fst ((t0, t1) :: l)) (idx + 1) = last (map fst l) (t0 - 1 + 1)).
    { cbn [map fst]. replace (t0 - 1 + 1) with t0 by lia. clear. generalize (idx + 1). generalize (map fst l). intros m. revert t0. induction m as [|c m IHm]; intros t0 n; auto. change (last (c :: m) n = last (c :: m) t0). rewrite !IHm. auto. }
    rewrite EL. eexists st', x', (_ :: out). split; [rewrite E, <- app_assoc; reflexivity|]. split; [rewrite <- app_assoc in M; exact M|]. constructor; auto.
Qed.
End Four.

Theorem four_site_disk_ok dbg o0 o1 o2 o3 ref0 ref1 targets inst ins st : no_tensors R st N -> ref0 < ref1 -> targets <> [] ->
  nondecreasing (map fst targets) -> (forall t0 t1, In (t0, t1) targets -> ref1 < t0 /\ t0 < t1 /\ t1 < N) ->
  (match inst with Some o => ins = o | None => nth_error ids 0 = Some ins end) -> fits_all ins -> fits_all o0 -> fits_all o1 -> fits_all o2 -> fits_all o3 ->
  exists st' out,
    four_site_disk R r0 radd rmul conj qr op_eqb ids disk dbg (o0, o1, o2, o3) ref0 ref1 targets inst st = (if dbg && negb (mps_empty R st') then Abort else Ok (st', out)) /\
    Forall2 (fun (tt : nat * nat) (r : list nat * R) => exists os, let (t0, t1) := tt in
      placed R ids [ref0; ref1; t0; t1] [o0; o1; o2; o3] [string (Some ins) ref0 ref1; string None ref1 t0; string (Some ins) t0 t1] os /\
      r = ([ref0; ref1; t0; t1], expect A os)) targets out /\
    (forall i, i < N -> (left_over targets i -> nth_error (tens st') i = Some (nth_error A i)) /\ (~ left_over targets i -> nth_error (tens st') i = Some None)).
Proof.
  intros HS HR HE HD HN HIns Fi F0 F1 F2 F3. unfold four_site_disk. apply mem_none in HS.
  assert (MT : mps_empty R st = true). { apply (held_empty (fun _ => false)); [apply (held_none (fun _ => false)); auto|auto]. }
  assert (exists m, length targets = S m) as (m & EM) by (destruct targets; [congruence|cbn; eauto]).
  destruct (nth_error targets m) as [[tl0 tl1]|] eqn:ET; [|apply nth_error_None in ET; lia]. pose proof (HN _ _ (nth_error_In _ _ ET)) as (Q1 & Q2 & Q3).
  rewrite MT. replace (assert_ dbg true) with (Ok tt) by (destruct dbg; auto). cbn [bind].
  assert (EI : (match inst with Some o => Ok o | None => vget ids 0 end) = Ok ins) by (destruct inst; [congruence|unfold vget; rewrite HIns; auto]). rewrite EI. cbn [bind].
  destruct (load_first st HS ltac:(lia)) as (st1 & t & E1 & M1 & C1). rewrite E1. cbn [bind].
  destruct (move_center_ok dbg 0 ref0 st1 A t M1 C1 ltac:(lia)) as (st2 & B & t2 & E2 & M2 & C2). rewrite E2. cbn [bind].
  destruct (mem_at _ st2 ref0 t2 M2 ltac:(lia)) as (st3 & E3 & M3). { unfold single. rewrite Nat.eqb_refl. auto. } rewrite E3. cbn [bind].
  destruct (get_A ref0 ltac:(lia)) as (a1 & Ea1).
  destruct (eat_head R r0 r1 radd rmul rsub ropp Rth conj B ref0 t2 o0) as (x & EX & HX). { apply C2. } { rewrite (chain_nth B ref0 t2 a1 C2 Ea1). symmetry. apply F0. eapply in_A; eauto. }
  rewrite EX. cbn [bind]. destruct (mem_dealloc _ st3 ref0 M3 ltac:(lia)) as (st4 & E4 & M4). rewrite E4. cbn [bind].
  assert (M5 : mem none st4) by (apply (mem_ext _ _ _ M4); intros i Hi; unfold set, single, none; destruct (i =? ref0); auto).
  assert (HX' : eaten B ref0 ref0 ([o0] ++ string (Some ins) ref0 (ref0 + 1)) x) by (rewrite string_0; auto).
  destruct (eat_string B ref0 t2 (Some ins) ref0 [o0] C2 (le_n _) Fi ref0 (ref1 - 1) st4 x (le_n _) ltac:(lia) ltac:(lia) M5 HX') as (st5 & x5 & E5 & M6 & HE5).
  replace (ref1 - 1 - ref0) with (ref1 - (ref0 + 1)) in E5 by lia.
  match goal with |- context [for_loop (ref0 + 1) ?n ?b ?s0] => replace (for_loop (ref0 + 1) n b s0) with (Ok (st5, x5)) by (symmetry; exact E5) end. cbn [bind].
  destruct (get_id ref1 ltac:(lia)) as (id1 & Ei1). unfold vget at 1. rewrite Ei1. cbn [bind]. replace ref1 with (ref1 - 1 + 1) in Ei1 by lia.
  destruct (mid_disk_ok B ref0 t2 (ref1 - 1) _ st5 x5 o1 id1 M6 C2 HE5 Ei1 ltac:(lia)) as (st6 & x6 & E6 & M7 & HE6). { intros a Ha. apply F1. eapply in_A; eauto. }
  replace (ref1 - 1 + 1) with ref1 in E6, HE6 by lia. rewrite E6. cbn [bind fst].
  assert (MT6 : mps_empty R st6 = true). { apply (held_empty (fun _ => false)); [apply (held_none (fun _ => false)); auto|auto]. }
  rewrite MT6. replace (assert_ dbg true) with (Ok tt) by (destruct dbg; auto). cbn [bind].
  assert (HE7 : eaten B ref0 ref1 ((([o0] ++ string (Some ins) ref0 ref1) ++ [o1]) ++ string None ref1 (ref1 + 1)) x6) by (rewrite string_0, app_nil_r; auto).
  destruct (targets_ok dbg B ref0 t2 C2 ref1 (([o0] ++ string (Some ins) ref0 ref1) ++ [o1]) ins o2 o3 ref0 ref1 ltac:(lia) Fi F2 F3 targets [] ref1 st6 x6 [] (le_n _) HD) as (st7 & x7 & out & E7 & M8 & HF); auto.
  { intros a b Hab. specialize (HN a b Hab). lia. }
  { apply held_none; auto. intros i Hi. apply andb_false_r. }
  match goal with |- context [for_each targets ?b ?s0] => replace (for_each targets b s0) with (Ok (st7, x7, last (map fst targets) (ref1 + 1) - 1, out)) by (symmetry; exact E7) end. cbn [bind].
  rewrite EM. unfold vget. rewrite ET. cbn [bind].
  assert (LT : last (map fst targets) (ref1 + 1) = tl0).
  { apply (map_nth_error fst) in ET. cbn [fst] in ET. clear - ET EM. rewrite <- (map_length fst) in EM. revert m ET EM. generalize (ref1 + 1). induction (map fst targets) as [|c [|d l] IH]; intros n m ET EM; [discriminate| |].
    - cbn in EM. injection EM as <-. cbn in ET. injection ET as ->. auto. - cbn [length] in EM. destruct m as [|m]; [discriminate|]. apply (IH n m); auto. }
  rewrite LT in M8. cbn [app] in M8.
  match goal with |- context [for_loop tl0 ?n ?b ?s0] => destruct (for_loop_inv _ (fun i (s : fmps) => tl0 <= i /\ mem (held (fun j => negb ((tl0 <=? j) && (j <? i)) && ((tl0 - 1 <? j) && covered targets j))) s) b n tl0 s0) as (st8 & E8 & G1 & G2) end.
  - split; auto. apply (held_ext _ _ _ M8). intros j Hj. destruct (Nat.leb_spec tl0 j), (Nat.ltb_spec j tl0); cbn [negb andb]; auto; lia.
  - intros i s Hi (I1 & I2). destruct (held_dealloc _ s i I2 ltac:(lia)) as (s' & Es & Ms). exists s'. split; auto. split; [lia|]. apply (held_ext _ _ _ Ms). intros j Hj.
    destruct (Nat.eqb_spec j i), (Nat.leb_spec tl0 j), (Nat.ltb_spec j i), (Nat.ltb_spec j (S i)); cbn [negb andb]; auto; lia.
  - rewrite E8. cbn [bind]. exists st8, out. split; [|split].
    + destruct dbg; cbn [andb]; [|reflexivity]. destruct (mps_empty R st8); reflexivity.
    + clear - HF HN EM HI HR. assert (HN' : forall t0 t1, In (t0, t1) targets -> ref1 < t0 /\ t0 < t1 /\ t1 < N) by exact HN. clear HN EM m. revert HN'. induction HF as [|[t0 t1] r l out Hr HF IH]; intros HN; constructor; auto.
      * cbn [fst snd] in Hr. destruct (HN t0 t1 (or_introl eq_refl)) as (K1 & K2 & K3). eexists. split; [|exact Hr].
        replace (((((([o0] ++ string (Some ins) ref0 ref1) ++ [o1]) ++ string None ref1 t0) ++ o2 :: string (Some ins) t0 t1) ++ [o3]))
          with (weave R [o0; o1; o2; o3] [string (Some ins) ref0 ref1; string None ref1 t0; string (Some ins) t0 t1]) by (do 4 (cbn [weave app]; rewrite <- ?app_assoc); cbn [weave app]; reflexivity).
        apply placed_spread; auto.
        { cbn [gaps_filled]. rewrite !string_len by lia. repeat split; lia. } { cbn [last_site]. rewrite ids_N. lia. }
      * apply IH. intros a b Hab. apply HN. right. auto.
    + intros i Hi. destruct G2 as (L1 & L2 & L3). rewrite (L3 i Hi). unfold held. replace (tl0 + (S tl1 - tl0)) with (S tl1) by lia.
      assert (HC : negb ((tl0 <=? i) && (i <? S tl1)) && ((tl0 - 1 <? i) && covered targets i) = true <-> left_over targets i).
      { unfold left_over. rewrite EM. replace (S m - 1) with m by lia. unfold covered. rewrite !andb_true_iff, existsb_exists. split.
        - intros (K1 & K2 & [c d] & K3 & K4). cbn [fst snd] in K4. exists tl0, tl1, c, d. split; auto. split; auto. apply andb_true_iff in K4. destruct K4 as [K4 K5]. apply Nat.leb_le in K4, K5. apply Nat.ltb_lt in K2. destruct (Nat.leb_spec tl0 i); [|lia]. destruct (Nat.ltb_spec i (S tl1)); [discriminate|lia].
        - intros (a & b & c & d & K1 & K2 & K3). rewrite ET in K1. injection K1 as <- <-.
          assert (KC : c <= tl0). { apply (in_map fst) in K2. cbn [fst] in K2. apply (map_nth_error fst) in ET. cbn [fst] in ET. apply In_nth_error in K2. destruct K2 as (k & Hk). assert (k <= m) by (assert (k < length (map fst targets)) by (apply nth_error_Some; congruence); rewrite map_length in *; lia). eapply (nondec_le (map fst targets) k m); eauto. }
          split; [destruct (Nat.leb_spec tl0 i), (Nat.ltb_spec i (S tl1)); auto; lia|]. split; [apply Nat.ltb_lt; lia|]. exists (c, d). split; auto. cbn [fst snd]. apply andb_true_iff. split; apply Nat.leb_le; lia. }
      destruct (negb _ && _) eqn:EB.
      * split; auto. intros K. exfalso. apply K. apply HC. auto.
      * split; auto. intros K. apply HC in K. discriminate.
Qed.
(** without targets the call reaches back() of an empty list *)
Theorem four_site_none dbg o0 o1 o2 o3 ref0 ref1 inst st : no_tensors R st N -> ref0 < ref1 < N -> fits_all o0 -> fits_all o1 -> (match inst with Some o => fits_all o | None => exists o, nth_error ids 0 = Some o /\ fits_all o end) ->
  four_site_disk R r0 radd rmul conj qr op_eqb ids disk dbg (o0, o1, o2, o3) ref0 ref1 [] inst st = Ub.
Proof.
  intros HS HR F0 F1 HIns. unfold four_site_disk. apply mem_none in HS.
  assert (MT : mps_empty R st = true). { apply (held_empty (fun _ => false)); [apply (held_none (fun _ => false)); auto|auto]. }
  rewrite MT. replace (assert_ dbg true) with (Ok tt) by (destruct dbg; auto). cbn [bind].
  assert (exists ins, (match inst with Some o => Ok o | None => vget ids 0 end) = Ok ins /\ fits_all ins) as (ins & EI & Fi).
  { destruct inst; [eauto|]. destruct HIns as (o & Ho & Hf). exists o. unfold vget. rewrite Ho. auto. }
  rewrite EI. cbn [bind].
  destruct (load_first st HS ltac:(lia)) as (st1 & t & E1 & M1 & C1). rewrite E1. cbn [bind].
  destruct (move_center_ok dbg 0 ref0 st1 A t M1 C1 ltac:(lia)) as (st2 & B & t2 & E2 & M2 & C2). rewrite E2. cbn [bind].
  destruct (mem_at _ st2 ref0 t2 M2 ltac:(lia)) as (st3 & E3 & M3). { unfold single. rewrite Nat.eqb_refl. auto. } rewrite E3. cbn [bind].
  destruct (get_A ref0 ltac:(lia)) as (a1 & Ea1).
  destruct (eat_head R r0 r1 radd rmul rsub ropp Rth conj B ref0 t2 o0) as (x & EX & HX). { apply C2. } { rewrite (chain_nth B ref0 t2 a1 C2 Ea1). symmetry. apply F0. eapply in_A; eauto. }
  rewrite EX. cbn [bind]. destruct (mem_dealloc _ st3 ref0 M3 ltac:(lia)) as (st4 & E4 & M4). rewrite E4. cbn [bind].
  assert (M5 : mem none st4) by (apply (mem_ext _ _ _ M4); intros i Hi; unfold set, single, none; destruct (i =? ref0); auto).
  assert (HX' : eaten B ref0 ref0 ([o0] ++ string (Some ins) ref0 (ref0 + 1)) x) by (rewrite string_0; auto).
  destruct (eat_string B ref0 t2 (Some ins) ref0 [o0] C2 (le_n _) Fi ref0 (ref1 - 1) st4 x (le_n _) ltac:(lia) ltac:(lia) M5 HX') as (st5 & x5 & E5 & M6 & HE5).
  replace (ref1 - 1 - ref0) with (ref1 - (ref0 + 1)) in E5 by lia.
  match goal with |- context [for_loop (ref0 + 1) ?n ?b ?s0] => replace (for_loop (ref0 + 1) n b s0) with (Ok (st5, x5)) by (symmetry; exact E5) end. cbn [bind].
  destruct (get_id ref1 ltac:(lia)) as (id1 & Ei1). unfold vget at 1. rewrite Ei1. cbn [bind]. replace ref1 with (ref1 - 1 + 1) in Ei1 by lia.
  destruct (mid_disk_ok B ref0 t2 (ref1 - 1) _ st5 x5 o1 id1 M6 C2 HE5 Ei1 ltac:(lia)) as (st6 & x6 & E6 & M7 & HE6). { intros a Ha. apply F1. eapply in_A; eauto. }
  replace (ref1 - 1 + 1) with ref1 in E6, HE6 by lia. rewrite E6. cbn [bind fst].
  assert (MT6 : mps_empty R st6 = true). { apply (held_empty (fun _ => false)); [apply (held_none (fun _ => false)); auto|auto]. }
  rewrite MT6. replace (assert_ dbg true) with (Ok tt) by (destruct dbg; auto). reflexivity.
Qed.
End Disk.
