(** The boundaries of noised runs depend on nothing but the physical dimensions and the maximal bond dimension. *)
From Coq Require Import List Arith Bool Lia QArith Qreals Reals Lra Ring_theory.
From Verif Require Import Base Disk SweepSpec NoiseSpec VmpsInitFacts FiniteMps FmpsSpec EffHam EffHamSpec ChainSpec Legs VmpsLocal VmpsSpec VmpsEnv Cx GVec ChainUpdate DmrgVarSpec ConserveSpec ConserveFacts ConserveVmps NoiseUpdate NoiseVarSpec NoiseGauge NoiseVar NoiseVarPrep.
Import ListNotations.
Local Open Scope nat_scope.

Lemma prod_step : forall ds i, i < length ds -> prod (firstn (i + 1) ds) = prod (firstn i ds) * nth i ds 0.
Proof. induction ds as [|d ds IH]; intros i H; cbn [length] in H; [lia|]. destruct i; cbn [Nat.add firstn prod nth]; [lia|]. rewrite IH by lia. lia. Qed.
Lemma prod_back : forall ds i, i < length ds -> prod (skipn i ds) = nth i ds 0 * prod (skipn (i + 1) ds).
Proof. induction ds as [|d ds IH]; intros i H; cbn [length] in H; [lia|]. destruct i; cbn [Nat.add skipn prod nth]; [reflexivity|]. apply IH. lia. Qed.

Definition legs_r (f : res cg -> res cg -> res cg * res cg) (exactly : bool) : Prop := forall a b D0 p1 D p2 D3, cgd a = [D0; p1; D] -> cgd b = [D; p2; D3] ->
  exists a' b' K, f (Ok a) (Ok b) = (Ok a', Ok b') /\ cgd a' = [D0; p1; K] /\ cgd b' = [K; p2; D3] /\ K <= D0 * p1 /\ (exactly = true -> K = D0 * p1).
Definition legs_l (f : res cg -> res cg -> res cg * res cg) (exactly : bool) : Prop := forall a b D0 p1 D p2 D3, cgd a = [D0; p1; D] -> cgd b = [D; p2; D3] ->
  exists a' b' K, f (Ok a) (Ok b) = (Ok a', Ok b') /\ cgd a' = [D0; p1; K] /\ cgd b' = [K; p2; D3] /\ K <= p2 * D3 /\ (exactly = true -> K = p2 * D3).
Section Moves.
Variable qr : nat -> cg -> cg * cg.
Hypothesis EQ : exact_qr qr.
Hypothesis TQ : thin_qr qr.
Lemma lcano_legs : legs_r (n_lcano qr) false.
Proof.
  intros a b D0 p1 D p2 D3 EA EB. destruct (lcano_goes qr EQ a b _ _ _ _ _ EA EB) as [a' [b' [K [A [S1 [S2 _]]]]]]. exists a', b', K. split; [exact A|]. split; [exact S1|]. split; [exact S2|].
  split; [|discriminate]. unfold n_lcano in A. cbn [bind] in A. assert (T := TQ a D0 p1 D EA). destruct (qr 2 a) as [q r]. destruct (gcontract _ _ _ _ _ _ r b); try discriminate. cbn [bind both] in A. injection A as -> _. apply T. exact S1.
Qed.
Lemma rcano_legs : legs_l (t_rcano qr) false.
Proof.
  intros a b D0 p1 D p2 D3 EA EB. destruct (rcano_goes qr EQ a b _ _ _ _ _ EA EB) as [a' [b' [K [A [S1 [S2 _]]]]]]. exists a', b', K. split; [exact A|]. split; [exact S1|]. split; [exact S2|].
  split; [|discriminate]. unfold t_rcano in A. cbn [bind] in A. unfold gtrans at 1 in A. unfold rank in A. rewrite EB in A. cbn [length legs_ok negb] in A.
  match type of A with context [if ?c then _ else _] => destruct c; [discriminate|] end. cbn [bind map nth] in A.
  match type of A with context [qr 2 ?x] => assert (T := TQ x D3 p2 D eq_refl); assert (E := EQ x D3 p2 D eq_refl); destruct (qr 2 x) as [q r] end.
  destruct E as [K' [Q1 [Q2 _]]]. specialize (T K' Q1). unfold gtrans in A. match type of A with context [if ?c then _ else _] => destruct c; [discriminate|] end. cbn [bind] in A.
  destruct (gcontract _ _ _ _ _ _ a r); try discriminate. cbn [bind both] in A. injection A as _ <-. cbn [gd] in S2. rewrite Q1 in S2. cbn in S2. injection S2 as <-. lia.
Qed.
Lemma combL_legs : legs_r n_combL true.
Proof.
  intros a b D0 p1 D p2 D3 EA EB. destruct (combL_goes a b _ _ _ _ _ EA EB) as [a' [b' [K [A [S1 [S2 _]]]]]]. exists a', b', K. split; [exact A|]. split; [exact S1|]. split; [exact S2|].
  enough (K = D0 * p1) by (split; [lia|auto]). unfold n_combL in A. cbn [bind] in A. rewrite EA in A. cbn [nth] in A.
  destruct (gcontract _ _ _ _ _ _ _ a); try discriminate. cbn [bind] in A. destruct (gcontract _ _ _ _ _ _ _ b); try discriminate. cbn [bind both] in A. injection A as <- _. cbn in S1. injection S1 as <-. reflexivity.
Qed.
Lemma combR_legs : legs_l n_combR true.
Proof.
  intros a b D0 p1 D p2 D3 EA EB. destruct (combR_goes a b _ _ _ _ _ EA EB) as [a' [b' [K [A [S1 [S2 _]]]]]]. exists a', b', K. split; [exact A|]. split; [exact S1|]. split; [exact S2|].
  enough (K = p2 * D3) by (split; [lia|auto]). unfold n_combR in A. cbn [bind] in A. rewrite EB in A. cbn [nth] in A. unfold gtrans in A. cbn [rank n_comb gd length] in A. match type of A with context [if ?c then _ else _] => destruct c; [discriminate|] end. cbn [bind] in A.
  destruct (gcontract _ _ _ _ _ _ b _); try discriminate. cbn [bind] in A. destruct (gcontract _ _ _ _ _ _ a _); try discriminate. cbn [bind both] in A. injection A as _ <-. cbn in S2. injection S2 as <-. reflexivity.
Qed.
End Moves.

Lemma half_double : forall n, 3 <= n -> (2 * half n + 2 = n \/ 2 * half n + 1 = n) /\ (2 * (n / 2) = n \/ 2 * (n / 2) + 1 = n).
Proof.
  intros n H. assert (DM := Nat.div_mod n 2 ltac:(lia)). assert (MB := Nat.mod_upper_bound n 2 ltac:(lia)). unfold half. destruct (Nat.even n) eqn:EV; [|split; [right|]].
  - apply Nat.even_spec in EV. destruct EV as [m EV]. assert (n mod 2 = 0) by (subst n; rewrite Nat.mul_comm; apply Nat.mod_mul; lia). lia.
  - assert (n mod 2 <> 0). { intros E. assert (X : Nat.even n = true) by (apply Nat.even_spec; exists (n / 2); lia). congruence. } lia.
  - lia.
Qed.
Section Bounds.
Variable N : nat.
Variable ws : nat -> cg.
Variable ds : list nat.
Notation chain := (chain N ws ds). Notation holds := (holds N).
Lemma chain_len : forall ts, chain ts -> length ds = N.
Proof. intros ts [_ <-]. unfold sites. rewrite !map_length, seq_length. reflexivity. Qed.
Lemma chain_phys : forall ts i, chain ts -> i < N -> nth 1 (cgd (ts i)) 0 = nth i ds 0.
Proof.
  intros ts i [_ <-] Hi. unfold sites. rewrite !map_map. symmetry. etransitivity; [apply nth_indep with (d' := d1 (cten_of (ts 0))); rewrite map_length, seq_length; exact Hi|].
  rewrite (map_nth (fun x => d1 (cten_of (ts x)))), seq_nth by exact Hi. reflexivity.
Qed.
Variables (canoL canoR combL combR : res cg -> res cg -> res cg * res cg) (Dmax : nat).
Notation bigL := (n_big 0 1 Dmax). Notation smallL := (n_small 0 1 2). Notation bigR := (n_big 1 2 Dmax). Notation smallR := (n_small 1 2 0).
Hypothesis HcL : goes_right canoL.
Hypothesis HcR : goes_left canoR.
Hypothesis HbL : goes_right combL.
Hypothesis HbR : goes_left combR.
Hypothesis LcL : legs_r canoL false.
Hypothesis LcR : legs_l canoR false.
Hypothesis LbL : legs_r combL true.
Hypothesis LbR : legs_l combR true.
Lemma step_r : forall f ex rs ts i, goes_right f -> legs_r f ex -> i + 1 < N -> holds rs ts -> chain ts ->
  exists ts', holds (set2 (res cg) rs i (f (rs i) (rs (i + 1)))) ts' /\ chain ts' /\ exists K, cgd (ts' i) = [nth 0 (cgd (ts i)) 0; nth i ds 0; K] /\ nth 0 (cgd (ts' (i + 1))) 0 = K /\ K <= nth 0 (cgd (ts i)) 0 * nth i ds 0 /\
  (ex = true -> K = nth 0 (cgd (ts i)) 0 * nth i ds 0).
Proof.
  intros f ex rs ts i HF LF Hi HR HC. destruct (go_right N ws ds f rs ts i HF Hi HR HC) as [ts' [A1 [[A2 _] _]]]. exists ts'. split; [exact A1|]. split; [exact A2|].
  destruct (cut2_at N ws ds ts i HC Hi) as [D0 [p1 [D [p2 [D3 [E1 [E2 _]]]]]]]. destruct (LF _ _ _ _ _ _ _ E1 E2) as [a [b [K [A [S1 [S2 [S3 S4]]]]]]].
  rewrite (HR i), (HR (i + 1)), A in A1 by lia. assert (X := A1 i ltac:(lia)). assert (Y := A1 (i + 1) ltac:(lia)). unfold set2 in X, Y. cbn [fst snd] in X, Y. rewrite fset_in in Y. rewrite fset_out, fset_in in X by lia. injection X as <-. injection Y as <-.
  assert (P := chain_phys ts i HC ltac:(lia)). rewrite E1 in *. cbn [nth] in *. subst p1. exists K. rewrite S2. auto.
Qed.
Lemma step_l : forall f ex rs ts i, goes_left f -> legs_l f ex -> i + 1 < N -> holds rs ts -> chain ts ->
  exists ts', holds (set2 (res cg) rs i (f (rs i) (rs (i + 1)))) ts' /\ chain ts' /\ exists K, cgd (ts' (i + 1)) = [K; nth (i + 1) ds 0; nth 2 (cgd (ts (i + 1))) 0] /\ nth 2 (cgd (ts' i)) 0 = K /\ K <= nth (i + 1) ds 0 * nth 2 (cgd (ts (i + 1))) 0 /\
  (ex = true -> K = nth (i + 1) ds 0 * nth 2 (cgd (ts (i + 1))) 0).
Proof.
  intros f ex rs ts i HF LF Hi HR HC. destruct (go_left N ws ds f rs ts i HF Hi HR HC) as [ts' [A1 [[A2 _] _]]]. exists ts'. split; [exact A1|]. split; [exact A2|].
  destruct (cut2_at N ws ds ts i HC Hi) as [D0 [p1 [D [p2 [D3 [E1 [E2 _]]]]]]]. destruct (LF _ _ _ _ _ _ _ E1 E2) as [a [b [K [A [S1 [S2 [S3 S4]]]]]]].
  rewrite (HR i), (HR (i + 1)), A in A1 by lia. assert (X := A1 i ltac:(lia)). assert (Y := A1 (i + 1) ltac:(lia)). unfold set2 in X, Y. cbn [fst snd] in X, Y. rewrite fset_in in Y. rewrite fset_out, fset_in in X by lia. injection X as <-. injection Y as <-.
  assert (P := chain_phys ts (i + 1) HC ltac:(lia)). rewrite E2 in *. cbn [nth] in *. subst p2. exists K. rewrite S1. auto.
Qed.
Lemma left_bound : forall n i lb rs ts, i + n < N -> holds rs ts -> chain ts -> nth 0 (cgd (ts i)) 0 = prod (firstn i ds) -> (n = 0 -> i = lb + 1) ->
  let r := prep_left (res cg) canoL bigL smallL combL n i lb rs in
  exists ts', holds (snd r) ts' /\ chain ts' /\ i <= fst r + 1 /\ fst r < i + n /\ (forall j, i <= j < fst r -> prod (firstn (j + 1) ds) <= Dmax) /\ (Dmax < prod (firstn (fst r + 1) ds) \/ fst r + 1 = i + n).
Proof.
  induction n as [|n IH]; intros i lb rs ts Hi HR HC HD H0; cbv zeta; cbn [prep_left].
  - cbn [fst snd]. rewrite (H0 eq_refl). exists ts. split; [exact HR|]. split; [exact HC|]. split; [lia|]. split; [lia|]. split; [intros; lia|]. right. lia.
  - destruct (step_r canoL false rs ts i HcL LcL ltac:(lia) HR HC) as [t1 [A1 [A2 [K [S1 [S2 [S3 _]]]]]]]. set (rs1 := set2 (res cg) rs i (canoL (rs i) (rs (i + 1)))) in *.
    assert (PS := prod_step ds i ltac:(rewrite (chain_len ts HC); lia)). rewrite HD, <- PS in *.
    assert (BG : bigL (rs1 i) = (Dmax <? prod (firstn (i + 1) ds))) by (rewrite (A1 i) by lia; unfold n_big; rewrite S1; cbn [nth]; rewrite <- PS; reflexivity).
    assert (SM : smallL (rs1 i) = (K <? prod (firstn (i + 1) ds))) by (rewrite (A1 i) by lia; unfold n_small; rewrite S1; cbn [nth]; rewrite <- PS; reflexivity).
    destruct (bigL (rs1 i)).
    { cbn [fst snd]. symmetry in BG. apply Nat.ltb_lt in BG. exists t1. split; [exact A1|]. split; [exact A2|]. split; [lia|]. split; [lia|]. split; [intros; lia|]. left. exact BG. }
    symmetry in BG. apply Nat.ltb_ge in BG.
    assert (X : exists t2, holds (if smallL (rs1 i) then set2 (res cg) rs1 i (combL (rs1 i) (rs1 (i + 1))) else rs1) t2 /\ chain t2 /\ nth 0 (cgd (t2 (i + 1))) 0 = prod (firstn (i + 1) ds)).
    { destruct (smallL (rs1 i)); symmetry in SM.
      - destruct (step_r combL true rs1 t1 i HbL LbL ltac:(lia) A1 A2) as [t2 [B1 [B2 [K2 [T1 [T2 [_ T4]]]]]]]. exists t2. split; [exact B1|]. split; [exact B2|]. rewrite T2, (T4 eq_refl), S1. cbn [nth]. symmetry. exact PS.
      - apply Nat.ltb_ge in SM. exists t1. split; [exact A1|]. split; [exact A2|]. lia. }
    destruct X as [t2 [X1 [X2 X3]]]. set (rs2 := if smallL (rs1 i) then _ else rs1) in *. replace (i + 1) with (S i) in X3 by lia.
    destruct (IH (S i) (if n =? 0 then i else lb) rs2 t2) as [t3 [C1 [C2 [C3 [C4 [C5 C6]]]]]]; auto; [lia|intros ->; cbn; lia|].
    exists t3. split; [exact C1|]. split; [exact C2|]. split; [lia|]. split; [lia|]. split; [|destruct C6; [auto|right; lia]].
    intros j Hj. destruct (Nat.eq_dec j i) as [->|]; [exact BG|apply C5; lia].
Qed.
Lemma right_bound : forall n i rb rs ts, n <= i -> i < N -> holds rs ts -> chain ts -> nth 2 (cgd (ts i)) 0 = prod (skipn (i + 1) ds) -> (n = 0 -> rb = i + 1) ->
  let r := prep_right (res cg) canoR bigR smallR combR n i rb rs in
  i - n < fst r /\ fst r <= i + 1 /\ (1 <= n -> fst r <= i) /\ (forall j, fst r < j <= i -> prod (skipn j ds) <= Dmax) /\ (Dmax < prod (skipn (fst r) ds) \/ fst r = i - n + 1).
Proof.
  induction n as [|n IH]; intros i rb rs ts Hn Hi HR HC HD H0; cbv zeta; cbn [prep_right].
  - cbn [fst snd]. rewrite (H0 eq_refl). split; [lia|]. split; [lia|]. split; [lia|]. split; [intros; lia|]. right. lia.
  - destruct (step_l canoR false rs ts (i - 1) HcR LcR ltac:(lia) HR HC) as [t1 [A1 [A2 [K [S1 [S2 [S3 _]]]]]]]. replace (i - 1 + 1) with i in * by lia. set (rs1 := set2 (res cg) rs (i - 1) (canoR (rs (i - 1)) (rs i))) in *.
    assert (PS := prod_back ds i ltac:(rewrite (chain_len ts HC); lia)). rewrite HD, <- PS in *.
    assert (BG : bigR (rs1 i) = (Dmax <? prod (skipn i ds))) by (rewrite (A1 i) by lia; unfold n_big; rewrite S1; cbn [nth]; rewrite <- PS; reflexivity).
    assert (SM : smallR (rs1 i) = (K <? prod (skipn i ds))) by (rewrite (A1 i) by lia; unfold n_small; rewrite S1; cbn [nth]; rewrite <- PS; reflexivity).
    destruct (bigR (rs1 i)).
    { cbn [fst snd]. symmetry in BG. apply Nat.ltb_lt in BG. split; [lia|]. split; [lia|]. split; [lia|]. split; [intros; lia|]. left. exact BG. }
    symmetry in BG. apply Nat.ltb_ge in BG.
    assert (X : exists t2, holds (if smallR (rs1 i) then set2 (res cg) rs1 (i - 1) (combR (rs1 (i - 1)) (rs1 i)) else rs1) t2 /\ chain t2 /\ nth 2 (cgd (t2 (i - 1))) 0 = prod (skipn i ds)).
    { destruct (smallR (rs1 i)); symmetry in SM.
      - destruct (step_l combR true rs1 t1 (i - 1) HbR LbR ltac:(lia) A1 A2) as [t2 [B1 [B2 [K2 [T1 [T2 [_ T4]]]]]]]. replace (i - 1 + 1) with i in * by lia. exists t2. split; [exact B1|]. split; [exact B2|]. rewrite T2, (T4 eq_refl), S1. cbn [nth]. symmetry. exact PS.
      - apply Nat.ltb_ge in SM. exists t1. split; [exact A1|]. split; [exact A2|]. lia. }
    destruct X as [t2 [X1 [X2 X3]]]. set (rs2 := if smallR (rs1 i) then _ else rs1) in *.
    destruct (IH (i - 1) (if n =? 0 then i else rb) rs2 t2) as [C3 [C4 [_ [C5 C6]]]]; auto; [lia|lia|replace (i - 1 + 1) with i by lia; exact X3|intros ->; cbn; lia|].
    split; [lia|]. split; [lia|]. split; [lia|]. split; [|destruct C6; [auto|right; lia]].
    intros j Hj. destruct (Nat.eq_dec j i) as [->|]; [exact BG|apply C5; lia].
Qed.
Lemma prep_bounds : forall rs ts lb rb rs1, 3 <= N -> holds rs ts -> chain ts -> prep (res cg) canoL canoR bigL smallL bigR smallR combL combR N rs = (lb, rb, rs1) ->
  left_limit N ds Dmax lb /\ right_limit N ds Dmax rb.
Proof.
  intros rs ts lb rb rs1 H3 HR HC HP. destruct (half_bounds N H3) as [B1 [B2 [B3 B4]]]. unfold prep in HP.
  assert (E0 : nth 0 (cgd (ts 0)) 0 = prod (firstn 0 ds)).
  { destruct (cut2_at N ws ds ts 0 HC ltac:(lia)) as [D0 [p1 [D [p2 [D3 [E1 [E2 [_ [F1 _]]]]]]]]]. rewrite E1. cbn in F1 |- *. congruence. }
  destruct (left_bound (half N) 0 0 rs ts ltac:(lia) HR HC E0 ltac:(lia)) as [t1 [A1 [A2 [A3 [A4 [A5 A6]]]]]].
  destruct (prep_left (res cg) canoL bigL smallL combL (half N) 0 0 rs) as [l r1]. cbn [fst snd] in *.
  assert (E1 : nth 2 (cgd (t1 (N - 1))) 0 = prod (skipn (N - 1 + 1) ds)).
  { destruct (cut2_at N ws ds t1 (N - 2) A2 ltac:(lia)) as [D0 [p1 [D [p2 [D3 [X1 [X2 [_ [_ F3]]]]]]]]]. replace (N - 2 + 1) with (N - 1) in X2 by lia. rewrite X2. replace (N - (N - 2 + 2)) with 0 in F3 by lia. cbn in F3.
    rewrite skipn_all2 by (rewrite (chain_len ts HC); lia). cbn. congruence. }
  destruct (right_bound (N - 1 - N / 2) (N - 1) 0 r1 t1 ltac:(lia) ltac:(lia) A1 A2 E1 ltac:(lia)) as [C1 [_ [C2 [C3 C4]]]].
  destruct (prep_right (res cg) canoR bigR smallR combR (N - 1 - N / 2) (N - 1) 0 r1) as [r r2]. cbn [fst snd] in *. injection HP as -> -> _. clear - B1 B2 B3 B4 A3 A4 A5 A6 C1 C2 C3 C4 H3.
  destruct (half_double N H3) as [HH HE].
  split; (split; [lia|]).
  - split; [intros j Hj; apply A5; lia|]. destruct A6 as [A6|A6]; [left; exact A6|right; lia].
  - split; [lia|]. split; [intros j Hj; apply C3; lia|]. destruct C4 as [C4|C4]; [left; exact C4|right; lia].
Qed.
End Bounds.
(** there is only one *)
Lemma left_unique : forall N ds D a b, left_limit N ds D a -> left_limit N ds D b -> a = b.
Proof.
  assert (X : forall N ds D a b, left_limit N ds D a -> left_limit N ds D b -> b <= a).
  { intros N ds D a b [A1 [A2 A3]] [B1 [B2 B3]]. destruct (le_lt_dec b a) as [|H]; [assumption|]. specialize (B2 a H). lia. }
  intros. apply Nat.le_antisymm; eapply X; eauto.
Qed.
Lemma right_unique : forall N ds D a b, right_limit N ds D a -> right_limit N ds D b -> a = b.
Proof.
  assert (X : forall N ds D a b, right_limit N ds D a -> right_limit N ds D b -> a <= b).
  { intros N ds D a b [A0 [A1 [A2 A3]]] [B0 [B1 [B2 B3]]]. destruct (le_lt_dec a b) as [|H]; [assumption|]. specialize (B2 a ltac:(lia)). lia. }
  intros. apply Nat.le_antisymm; eapply X; eauto.
Qed.
