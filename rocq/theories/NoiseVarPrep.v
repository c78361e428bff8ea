(** The preparation of noised runs keeps the state and puts the center behind the left boundary. *)
From Coq Require Import List Arith Bool Lia QArith Qreals Reals Lra Ring_theory.
From Verif Require Import Base Disk SweepSpec NoiseSpec VmpsInitFacts FiniteMps FmpsSpec FmpsFacts EffHam EffHamSpec EffHamFacts ChainSpec ChainFacts Legs VmpsLocal VmpsSpec VmpsEnv VmpsHeff Cx KrylovInst GVec DmrgStep ChainPair ChainUpdate DmrgVarSpec DmrgVar ConserveSpec ConserveFacts ConserveRun ConserveVmps SingleVar NoiseUpdate NoiseGauge NoiseVar.
Import ListNotations.
Local Open Scope nat_scope.

(** functions that change the gauge of two neighbours *)
Definition goes_right (f : res cg -> res cg -> res cg * res cg) : Prop := forall a b D0 p1 D p2 D3, cgd a = [D0; p1; D] -> cgd b = [D; p2; D3] ->
  exists a' b' K, f (Ok a) (Ok b) = (Ok a', Ok b') /\ cgd a' = [D0; p1; K] /\ cgd b' = [K; p2; D3] /\ csplits D0 p1 p2 D3 (ctwo (cten_of a) (cten_of b)) (cten_of a') (cten_of b') /\ cleft (cten_of a').
Definition goes_left (f : res cg -> res cg -> res cg * res cg) : Prop := forall a b D0 p1 D p2 D3, cgd a = [D0; p1; D] -> cgd b = [D; p2; D3] ->
  exists a' b' K, f (Ok a) (Ok b) = (Ok a', Ok b') /\ cgd a' = [D0; p1; K] /\ cgd b' = [K; p2; D3] /\ csplits D0 p1 p2 D3 (ctwo (cten_of a) (cten_of b)) (cten_of a') (cten_of b') /\ cright (cten_of b') /\
    (cright (cten_of a) -> cright (cten_of b) -> cright (cten_of a')).

Section Moves.
Variable qr : nat -> cg -> cg * cg.
Hypothesis EQ : exact_qr qr.
Lemma lcano_goes : goes_right (n_lcano qr).
Proof.
  intros a b D0 p1 D p2 D3 EA EB. destruct (lcano_ok cx c0 c1 cadd cmul csub copp cx_ring cconj qr EQ a b _ _ _ _ _ EA EB) as [a' [b' [K [A H]]]].
  exists a', b', K. split; [|exact H]. unfold n_lcano. cbn [bind]. rewrite A. reflexivity.
Qed.
Lemma moved_goes : forall (f : res cg -> res cg -> res cg * res cg) a b D0 p1 D p2 D3, cgd a = [D0; p1; D] -> cgd b = [D; p2; D3] ->
  (exists a' b' K, f (Ok a) (Ok b) = (Ok a', Ok b') /\ cgd a' = [D0; p1; K] /\ cgd b' = [K; p2; D3] /\ exists m, moved cx c0 c1 cadd cmul cconj m (cten_of a) (cten_of b) (cten_of a') (cten_of b')) ->
  exists a' b' K, f (Ok a) (Ok b) = (Ok a', Ok b') /\ cgd a' = [D0; p1; K] /\ cgd b' = [K; p2; D3] /\ csplits D0 p1 p2 D3 (ctwo (cten_of a) (cten_of b)) (cten_of a') (cten_of b') /\ cright (cten_of b') /\
    (cright (cten_of a) -> cright (cten_of b) -> cright (cten_of a')).
Proof.
  intros f a b D0 p1 D p2 D3 EA EB [a' [b' [K [A [A1 [A2 [m M]]]]]]]. exists a', b', K. split; [exact A|]. split; [exact A1|]. split; [exact A2|].
  destruct (ten_dims cx _ _ _ _ EA) as [U0 [U1 U2]]. destruct (ten_dims cx _ _ _ _ EB) as [V0 [V1 V2]].
  split; [|split; [apply M|]].
  - assert (P := moved_splits cx c0 c1 cadd cmul csub copp cx_ring cconj m _ _ _ _ (eq_trans U2 (eq_sym V0)) M). rewrite U0, U1, V1, V2 in P. exact P.
  - exact (moved_right cx c0 c1 cadd cmul csub copp cx_ring cconj cconj0 cconj_add cconj_mul m _ _ _ _ (eq_trans U2 (eq_sym V0)) M).
Qed.
Lemma rcano_goes : goes_left (t_rcano qr).
Proof.
  intros a b D0 p1 D p2 D3 EA EB. apply (moved_goes (t_rcano qr) a b _ _ _ _ _ EA EB).
  destruct (rcano_moved cx c0 c1 cadd cmul csub copp cx_ring cconj qr EQ a b _ _ _ _ _ EA EB) as [a' [b' [K [A H]]]]. exists a', b', K. split; [|exact H].
  unfold t_rcano. cbn [bind]. unfold rcano in A. rewrite A. reflexivity.
Qed.
End Moves.
Lemma combL_goes : goes_right n_combL.
Proof.
  intros a b D0 p1 D p2 D3 EA EB. destruct (combL_ok cx c0 c1 cadd cmul csub copp cx_ring cconj cconj0 cconj1 a b _ _ _ _ _ EA EB) as [b' [A [A1 [A2 A3]]]].
  exists (n_comb D0 p1), b', (D0 * p1). split; [|split; [reflexivity|split; [exact A1|split; [exact A2|exact A3]]]]. unfold n_combL. cbn [bind]. rewrite EA. cbn [nth]. fold (comb cx c0 c1 D0 p1) in A. unfold n_comb. unfold comb in A. rewrite A. reflexivity.
Qed.
Lemma combR_goes : goes_left n_combR.
Proof.
  intros a b D0 p1 D p2 D3 EA EB. apply (moved_goes n_combR a b _ _ _ _ _ EA EB).
  destruct (combR_ok cx c0 c1 cadd cmul csub copp cx_ring cconj cconj0 cconj1 a b _ _ _ _ _ EA EB) as [a' [b' [A H]]]. exists a', b', (p2 * D3). split; [|exact H].
  unfold n_combR. cbn [bind]. rewrite EB. cbn [nth]. unfold comb in A. unfold n_comb. rewrite A. reflexivity.
Qed.

Section Prep.
Variable N : nat.
Variable ws : nat -> cg.
Variable ds : list nat.
Notation chain := (chain N ws ds). Notation sq_norm := (sq_norm N). Notation energy_val := (energy_val N ws). Notation holds := (holds N).
Definition gauge (ts ts' : nat -> cg) : Prop := chain ts' /\ sq_norm ts' = sq_norm ts /\ energy_val ts' = energy_val ts.
Lemma gauge_trans : forall a b c, gauge a b -> gauge b c -> gauge a c.
Proof. intros a b c [A1 [A2 A3]] [B1 [B2 B3]]. repeat split; try apply B1; congruence. Qed.
Lemma gauge_refl : forall a, chain a -> gauge a a.
Proof. intros a H. split; [exact H|]. auto. Qed.

Lemma go_right : forall f rs ts i, goes_right f -> i + 1 < N -> holds rs ts -> chain ts ->
  exists ts', holds (set2 (res cg) rs i (f (rs i) (rs (i + 1)))) ts' /\ gauge ts ts' /\ cleft (cten_of (ts' i)) /\ forall j, j <> i -> j <> i + 1 -> ts' j = ts j.
Proof.
  intros f rs ts i HF Hi HR HC. destruct (cut2_at N ws ds ts i HC Hi) as [D0 [p1 [D [p2 [D3 [E1 [E2 _]]]]]]].
  destruct (HF _ _ _ _ _ _ _ E1 E2) as [a [b [K [A [S1 [S2 [SP CA]]]]]]]. rewrite (HR i) by lia. rewrite (HR (i + 1)) by lia. rewrite A. unfold set2. cbn [fst snd].
  exists (fset (fset ts i a) (i + 1) b). split; [apply set_holds; exact HR|]. split; [exact (set_pair N ws ds ts i a b _ _ _ _ _ _ HC Hi E1 E2 S1 S2 SP)|].
  split; [rewrite fset_out, fset_in by lia; exact CA|]. intros j J1 J2. rewrite !fset_out by auto. reflexivity.
Qed.
Lemma go_left : forall f rs ts i, goes_left f -> i + 1 < N -> holds rs ts -> chain ts ->
  exists ts', holds (set2 (res cg) rs i (f (rs i) (rs (i + 1)))) ts' /\ gauge ts ts' /\ cright (cten_of (ts' (i + 1))) /\ (cright (cten_of (ts i)) -> cright (cten_of (ts (i + 1))) -> cright (cten_of (ts' i))) /\
  forall j, j <> i -> j <> i + 1 -> ts' j = ts j.
Proof.
  intros f rs ts i HF Hi HR HC. destruct (cut2_at N ws ds ts i HC Hi) as [D0 [p1 [D [p2 [D3 [E1 [E2 _]]]]]]].
  destruct (HF _ _ _ _ _ _ _ E1 E2) as [a [b [K [A [S1 [S2 [SP [CB CA]]]]]]]]. rewrite (HR i) by lia. rewrite (HR (i + 1)) by lia. rewrite A. unfold set2. cbn [fst snd].
  exists (fset (fset ts i a) (i + 1) b). split; [apply set_holds; exact HR|]. split; [exact (set_pair N ws ds ts i a b _ _ _ _ _ _ HC Hi E1 E2 S1 S2 SP)|].
  split; [rewrite fset_in; exact CB|]. split; [rewrite fset_out, fset_in by lia; exact CA|]. intros j J1 J2. rewrite !fset_out by auto. reflexivity.
Qed.

Variables (canoL canoR combL combR : res cg -> res cg -> res cg * res cg) (bigL smallL bigR smallR : res cg -> bool).
Hypothesis HcL : goes_right canoL.
Hypothesis HcR : goes_left canoR.
Hypothesis HbL : goes_right combL.
Hypothesis HbR : goes_left combR.
Lemma prep_left_ok : forall n i lb rs ts, i + n < N -> holds rs ts -> chain ts -> (forall j, j < i -> cleft (cten_of (ts j))) -> (n = 0 -> i = lb + 1) ->
  let r := prep_left (res cg) canoL bigL smallL combL n i lb rs in
  exists ts', holds (snd r) ts' /\ gauge ts ts' /\ (forall j, j < fst r + 1 -> cleft (cten_of (ts' j))) /\ (forall j, fst r + 1 < j -> ts' j = ts j) /\ i <= fst r + 1.
Proof.
  induction n as [|n IH]; intros i lb rs ts Hi HR HC HL H0; cbv zeta; cbn [prep_left].
  - cbn [fst snd]. rewrite (H0 eq_refl) in HL. exists ts. split; [exact HR|]. split; [apply gauge_refl; exact HC|]. split; [exact HL|]. split; [auto|]. rewrite (H0 eq_refl). lia.
  - destruct (go_right canoL rs ts i HcL ltac:(lia) HR HC) as [t1 [A1 [A2 [A3 A4]]]]. set (rs1 := set2 (res cg) rs i (canoL (rs i) (rs (i + 1)))) in *.
    destruct (bigL (rs1 i)).
    { cbn [fst snd]. exists t1. split; [exact A1|]. split; [exact A2|]. split; [|split; [intros; apply A4; lia|lia]]. intros j Hj. destruct (Nat.eq_dec j i) as [->|]; [exact A3|]. rewrite A4 by lia. apply HL. lia. }
    assert (X : exists t2, holds (if smallL (rs1 i) then set2 (res cg) rs1 i (combL (rs1 i) (rs1 (i + 1))) else rs1) t2 /\ gauge ts t2 /\ cleft (cten_of (t2 i)) /\ forall j, j <> i -> j <> i + 1 -> t2 j = ts j).
    { destruct (smallL (rs1 i)); [|exists t1; auto]. destruct (go_right combL rs1 t1 i HbL ltac:(lia) A1 (proj1 A2)) as [t2 [B1 [B2 [B3 B4]]]]. exists t2. split; [exact B1|]. split; [exact (gauge_trans _ _ _ A2 B2)|].
      split; [exact B3|]. intros j J1 J2. rewrite B4, A4 by auto. reflexivity. }
    destruct X as [t2 [X1 [X2 [X3 X4]]]]. set (rs2 := if smallL (rs1 i) then _ else rs1) in *.
    destruct (IH (S i) (if n =? 0 then i else lb) rs2 t2) as [t3 [C1 [C2 [C3 [C4 C5]]]]]; auto; [lia|apply X2| |intros ->; cbn; lia|].
    { intros j Hj. destruct (Nat.eq_dec j i) as [->|]; [exact X3|]. rewrite X4 by lia. apply HL. lia. }
    exists t3. split; [exact C1|]. split; [exact (gauge_trans _ _ _ X2 C2)|]. split; [exact C3|]. split; [|lia]. intros j Hj. rewrite C4 by exact Hj. apply X4; lia.
Qed.
(** c: sites behind it are right-canonical before and after, those before it are not touched *)
Lemma prep_right_ok : forall n i rb rs ts c, c + n <= i -> i < N -> holds rs ts -> chain ts -> (forall j, c < j < N -> cright (cten_of (ts j))) ->
  let r := prep_right (res cg) canoR bigR smallR combR n i rb rs in
  exists ts', holds (snd r) ts' /\ gauge ts ts' /\ (forall j, c < j < N -> cright (cten_of (ts' j))) /\ (forall j, j < c -> ts' j = ts j).
Proof.
  induction n as [|n IH]; intros i rb rs ts c Hc Hi HR HC HL; cbv zeta; cbn [prep_right].
  - cbn [snd]. exists ts. split; [exact HR|]. split; [apply gauge_refl; exact HC|]. auto.
  - assert (Ei : i - 1 + 1 = i) by lia.
    assert (ST : forall f r t, goes_left f -> holds r t -> chain t -> (forall j, c < j < N -> cright (cten_of (t j))) ->
      exists t', holds (set2 (res cg) r (i - 1) (f (r (i - 1)) (r i))) t' /\ gauge t t' /\ (forall j, c < j < N -> cright (cten_of (t' j))) /\ (forall j, j < c -> t' j = t j)).
    { intros f r t Hf Hr Ht Hri. destruct (go_left f r t (i - 1) Hf ltac:(lia) Hr Ht) as [t1 [A1 [A2 [A3 [A4 A5]]]]]. rewrite Ei in *. exists t1. split; [exact A1|]. split; [exact A2|]. split; [|intros; apply A5; lia].
      intros j Hj. destruct (Nat.eq_dec j i) as [->|]; [exact A3|]. destruct (Nat.eq_dec j (i - 1)) as [->|]; [apply A4; apply Hri; lia|]. rewrite A5 by auto. apply Hri. exact Hj. }
    destruct (ST canoR rs ts HcR HR HC HL) as [t1 [A1 [A2 [A3 A4]]]]. set (rs1 := set2 (res cg) rs (i - 1) (canoR (rs (i - 1)) (rs i))) in *.
    destruct (bigR (rs1 i)); [cbn [snd]; exists t1; auto|].
    assert (X : exists t2, holds (if smallR (rs1 i) then set2 (res cg) rs1 (i - 1) (combR (rs1 (i - 1)) (rs1 i)) else rs1) t2 /\ gauge ts t2 /\ (forall j, c < j < N -> cright (cten_of (t2 j))) /\ (forall j, j < c -> t2 j = ts j)).
    { destruct (smallR (rs1 i)); [|exists t1; auto]. destruct (ST combR rs1 t1 HbR A1 (proj1 A2) A3) as [t2 [B1 [B2 [B3 B4]]]]. exists t2. split; [exact B1|]. split; [exact (gauge_trans _ _ _ A2 B2)|]. split; [exact B3|].
      intros j Hj. rewrite B4, A4 by auto. reflexivity. }
    destruct X as [t2 [X1 [X2 [X3 X4]]]]. set (rs2 := if smallR (rs1 i) then _ else rs1) in *.
    destruct (IH (i - 1) (if n =? 0 then i else rb) rs2 t2 c) as [t3 [C1 [C2 [C3 C4]]]]; auto; [lia|lia|apply X2|].
    exists t3. split; [exact C1|]. split; [exact (gauge_trans _ _ _ X2 C2)|]. split; [exact C3|]. intros j Hj. rewrite C4, X4 by auto. reflexivity.
Qed.
Lemma prep_ok : forall rs ts lb rb rs1, 3 <= N -> holds rs ts -> chain ts -> prep (res cg) canoL canoR bigL smallL bigR smallR combL combR N rs = (lb, rb, rs1) ->
  (forall j, lb + 1 < j < N -> cright (cten_of (ts j))) ->
  exists ts1, holds rs1 ts1 /\ gauge ts ts1 /\ center_at N (lb + 1) ts1.
Proof.
  intros rs ts lb rb rs1 H3 HR HC HP HL. destruct (prep_range (res cg) canoL canoR bigL smallL bigR smallR combL combR N rs lb rb rs1 H3 HP) as [R1 R2]. destruct (half_bounds N H3) as [B1 [B2 [B3 B4]]].
  unfold prep in HP. destruct (prep_left_ok (half N) 0 0 rs ts ltac:(lia) HR HC) as [t1 [A1 [A2 [A3 [A4 _]]]]]; [intros; lia|lia|].
  destruct (prep_left (res cg) canoL bigL smallL combL (half N) 0 0 rs) as [l r1]. cbn [fst snd] in *.
  destruct (prep_right (res cg) canoR bigR smallR combR (N - 1 - N / 2) (N - 1) 0 r1) as [r r2] eqn:E2. injection HP as -> -> ->.
  destruct (prep_right_ok (N - 1 - N / 2) (N - 1) 0 r1 t1 (lb + 1)) as [t2 [C1 [C2 [C3 C4]]]]; auto; [lia|lia|apply A2|intros j Hj; rewrite A4 by lia; apply HL; lia|].
  rewrite E2 in C1. cbn [snd] in C1. exists t2. split; [exact C1|]. split; [exact (gauge_trans _ _ _ A2 C2)|]. split; [|exact C3]. intros j Hj. rewrite C4 by exact Hj. apply A3. exact Hj.
Qed.
End Prep.
