(** Chains of tensors with legs: what acting with an operator does to the amplitudes, and what the recorded overlaps are. *)
From Coq Require Import List Arith Bool Lia QArith Qreals Reals Lra Ring_theory.
From Verif Require Import Base Disk SweepSpec NoiseSpec Tdvp TdvpSpec FiniteMps FmpsSpec FmpsFacts EffHam EffHamSpec EffHamFacts ChainSpec ChainFacts Legs VmpsLocal VmpsSpec VmpsEnv VmpsHeff Lanczos LanczosSpec KrylovSpec Cx KrylovInst GVec GVecFacts DmrgStep ChainOne ChainPair ChainUpdate DmrgVarSpec DmrgVar ConserveSpec ConserveFacts ConserveRun ConserveVmps CorrUpdate CorrSpec CorrFacts.
Import ListNotations.
Local Open Scope nat_scope.
Notation cpair := (pair cx c0 c1 cadd cmul cconj). Notation cdelta := (delta cx c0 c1).

Lemma nth_rep : forall p n i, i < n -> nth i (repeat p n) 0 = p.
Proof. intros p. induction n as [|n IH]; intros [|i] H; cbn; try lia. apply IH. lia. Qed.

Section Chain.
Variable N : nat.
Variable ws : nat -> cg.
Variables (p : nat) (ds : list nat).
Hypothesis Hds : ds = repeat p N.
Notation chain := (chain N ws ds). Notation holds := (holds N). Notation center_at := (center_at N).
Notation tens n ts := (sites n (fun i => cten_of (ts i))).

Lemma chain_dim : forall ts i, chain ts -> i < N -> exists D E, cgd (ts i) = [D; p; E].
Proof.
  intros ts i HC Hi. apply chain_iff in HC. destruct HC as [HS [_ [_ HD]]]. destruct (HS i Hi) as [D [q [E [m [n [E1 E2]]]]]]. exists D, E. rewrite E1. f_equal. f_equal.
  assert (X : nth i (map (@d1 cx) (tens N ts)) 0 = q).
  { unfold sites. rewrite map_map, (nth_indep _ 0 ((fun i => d1 (cten_of (ts i))) 0)) by (rewrite map_length, seq_length; exact Hi). rewrite (map_nth (fun i => d1 (cten_of (ts i)))), List.seq_nth by exact Hi. destruct (ten_dims cx _ _ _ _ E1) as [_ [Q _]]. exact Q. }
  rewrite HD, Hds, (nth_rep p N i Hi) in X. congruence.
Qed.
Lemma chain_fit : forall ts i, chain ts -> i < N -> fit cx 1 (tens i ts) (d0 (cten_of (ts i))) /\ fit cx (d2 (cten_of (ts i))) (map (fun i => cten_of (ts i)) (seq (i + 1) (N - 1 - i))) 1.
Proof. intros ts i HC Hi. apply chain_iff in HC. destruct HC as [_ [HF _]]. rewrite (sites_one N _ _ i Hi) in HF. apply fit_mid1 in HF. exact HF. Qed.
Lemma amp_sites : forall ts c, amp N ts c = mps_mat cx c0 c1 cadd cmul (tens N ts) c 0 0.
Proof. intros. unfold amp, sites. rewrite map_map. reflexivity. Qed.
Lemma chain_ds : forall ts, chain ts -> map (@d1 cx) (tens N ts) = ds.
Proof. intros ts HC. apply chain_iff in HC. apply HC. Qed.

(** *** overlaps *)
Section Overlap.
Variables (op : cg) (str : option cg).
Hypothesis Hop : square p op.
Hypothesis Hstr : match str with Some g => square p g | None => True end.
Notation lefts := (lefts (res cg) (res cg) m_triv (m_left str)). Notation rights := (rights (res cg) (res cg) N m_triv m_right).
Notation sop := (match str with Some o => fun s s' => cge o [s; s'] | None => cdelta end).
Variables (rs1 rs2 : nat -> res cg) (t1 t2 : nat -> cg).
Hypotheses (H1 : holds rs1 t1) (H2 : holds rs2 t2) (C1 : chain t1) (C2 : chain t2).
Lemma lefts_ok : forall k, k < N -> exists e, lefts rs1 rs2 k = Ok e /\ cgd e = [d0 (cten_of (t2 k)); d0 (cten_of (t1 k))] /\
  forall y' y, y' < d0 (cten_of (t2 k)) -> y < d0 (cten_of (t1 k)) -> cge e [y'; y] = cpair (map (fun _ => sop) (seq 0 k)) (tens k t2) (tens k t1) 0 0 y' y.
Proof.
  induction k as [|k IH]; intros Hk.
  - exists (o_triv cx c1). split; [reflexivity|]. destruct (chain_fit t1 0 C1 Hk) as [F1 _]. destruct (chain_fit t2 0 C2 Hk) as [F2 _]. cbn in F1, F2.
    cbn [Legs.ten_of d0]. cbn in F1, F2. rewrite <- F1, <- F2. split; [reflexivity|]. intros y' y Hy' Hy. replace y' with 0 by lia. replace y with 0 by lia. cbn -[c0 c1 cmul]. ring.
  - destruct (IH ltac:(lia)) as [l [L1 [L2 L3]]]. cbn [TdvpSpec.lefts]. rewrite L1, (H1 k), (H2 k) by lia.
    destruct (chain_dim t1 k C1 ltac:(lia)) as [D [E A1]]. destruct (chain_dim t2 k C2 ltac:(lia)) as [D' [E' B1]].
    destruct (ten_dims cx _ _ _ _ A1) as [A2 [A3 A4]]. destruct (ten_dims cx _ _ _ _ B1) as [B2 [B3 B4]]. rewrite A2, B2 in *.
    destruct (chain_fit t1 k C1 ltac:(lia)) as [F1 _]. destruct (chain_fit t2 k C2 ltac:(lia)) as [F2 _]. rewrite A2 in F1. rewrite B2 in F2.
    destruct (left_pair cx c0 c1 cadd cmul csub copp cx_ring cconj str l (t2 k) (t1 k) D' p E' D E (map (fun _ => sop) (seq 0 k)) (tens k t2) (tens k t1) B1 A1 L2 Hstr) as [e [O1 [O2 O3]]]; auto; try (unfold sites; rewrite !map_length; reflexivity).
    exists e. unfold m_left. cbn [bind]. split; [exact O1|].
    destruct (chain_fit t1 (S k) C1 Hk) as [G1 _]. destruct (chain_fit t2 (S k) C2 Hk) as [G2 _]. unfold sites in G1, G2. rewrite seq_S, map_app in G1, G2. cbn [map Nat.add] in G1, G2.
    apply (fit_snoc cx) in G1, G2. destruct G1 as [_ G1], G2 as [_ G2]. rewrite <- G1, <- G2, A4, B4. split; [exact O2|].
    intros y' y Hy' Hy. rewrite O3 by assumption. unfold sites. rewrite seq_S, !map_app. reflexivity.
Qed.
Lemma rights_ok : forall k, k < N -> exists e, rights rs1 rs2 k = Ok e /\ cgd e = [d2 (cten_of (t2 (N - 1 - k))); d2 (cten_of (t1 (N - 1 - k)))] /\
  forall y' y, y' < d2 (cten_of (t2 (N - 1 - k))) -> y < d2 (cten_of (t1 (N - 1 - k))) ->
  cge e [y'; y] = cpair (map (fun _ => cdelta) (seq (N - k) k)) (map (fun i => cten_of (t2 i)) (seq (N - k) k)) (map (fun i => cten_of (t1 i)) (seq (N - k) k)) y' y 0 0.
Proof.
  induction k as [|k IH]; intros Hk.
  - exists (o_triv cx c1). split; [reflexivity|]. destruct (chain_fit t1 (N - 1 - 0) C1 ltac:(lia)) as [_ F1]. destruct (chain_fit t2 (N - 1 - 0) C2 ltac:(lia)) as [_ F2].
    replace (N - 1 - (N - 1 - 0)) with 0 in F1, F2 by lia. cbn [seq map EffHamSpec.fit] in F1, F2. rewrite F1, F2. split; [reflexivity|].
    intros y' y Hy' Hy. replace y' with 0 by lia. replace y with 0 by lia. cbn -[c0 c1 cmul]. ring.
  - destruct (IH ltac:(lia)) as [r [R1 [R2 R3]]]. cbn [TdvpSpec.rights]. rewrite R1, (H1 (N - 1 - k)), (H2 (N - 1 - k)) by lia.
    destruct (chain_dim t1 (N - 1 - k) C1 ltac:(lia)) as [D [E A1]]. destruct (chain_dim t2 (N - 1 - k) C2 ltac:(lia)) as [D' [E' B1]].
    destruct (ten_dims cx _ _ _ _ A1) as [A2 [A3 A4]]. destruct (ten_dims cx _ _ _ _ B1) as [B2 [B3 B4]]. rewrite A4, B4 in *.
    destruct (right_pair cx c0 c1 cadd cmul csub copp cx_ring cconj (t2 (N - 1 - k)) (t1 (N - 1 - k)) r D' p E' D E _ _ _ B1 A1 R2 R3) as [e [O1 [O2 O3]]].
    exists e. unfold m_right. cbn [bind]. split; [exact O1|].
    assert (G : forall t, chain t -> d2 (cten_of (t (N - 1 - S k))) = d0 (cten_of (t (N - 1 - k)))).
    { intros t C. destruct (chain_fit t (N - 1 - S k) C ltac:(lia)) as [_ F]. replace (N - 1 - (N - 1 - S k)) with (S k) in F by lia. replace (N - 1 - S k + 1) with (N - 1 - k) in F by lia. cbn [seq map EffHamSpec.fit] in F. symmetry. apply F. }
    rewrite (G t1 C1), (G t2 C2), A2, B2. split; [exact O2|]. intros y' y _ _. rewrite O3. replace (N - S k) with (N - 1 - k) by lia. cbn [seq map]. replace (S (N - 1 - k)) with (N - k) by lia. reflexivity.
Qed.
Lemma overlap_ok : forall i, i < N -> overlap_at (res cg) (res cg) (res cx) N m_triv m_triv m_right (m_left str) (m_val op) rs1 rs2 i =
  Ok (ccorr ds (cstring N (str_of str) (op_of op) i) (amp N t2) (amp N t1)).
Proof.
  intros i Hi. unfold overlap_at. destruct (lefts_ok i Hi) as [l [L1 [L2 L3]]]. destruct (rights_ok (N - 1 - i) ltac:(lia)) as [r [R1 [R2 R3]]]. rewrite L1, R1, (H1 i), (H2 i) by exact Hi.
  replace (N - 1 - (N - 1 - i)) with i in * by lia. replace (N - (N - 1 - i)) with (i + 1) in * by lia.
  destruct (chain_dim t1 i C1 Hi) as [D [E A1]]. destruct (chain_dim t2 i C2 Hi) as [D' [E' B1]].
  destruct (ten_dims cx _ _ _ _ A1) as [A2 [A3 A4]]. destruct (ten_dims cx _ _ _ _ B1) as [B2 [B3 B4]].
  destruct (chain_fit t1 i C1 Hi) as [F1 _]. destruct (chain_fit t2 i C2 Hi) as [F2 _]. rewrite A2, A4, B2, B4 in *.
  unfold m_val. cbn [bind].
  rewrite (val_pair cx c0 c1 cadd cmul csub copp cx_ring cconj op l (t2 i) (t1 i) r D' p E' D E _ _ _ _ _ _ B1 A1 L2 R2 Hop) with (6 := R3) (5 := L3); auto; try (unfold sites; rewrite !map_length; reflexivity). f_equal.
  rewrite <- !(sites_one N _ (fun i => cten_of (_ i)) i Hi).
  assert (S : map (fun _ => sop) (seq 0 i) ++ [fun s s' => cge op [s; s']] ++ map (fun _ => cdelta) (seq (i + 1) (N - 1 - i)) = cstring N (str_of str) (op_of op) i).
  { unfold string_op. replace (seq 0 N) with (seq 0 i ++ [i] ++ seq (i + 1) (N - 1 - i)) by (replace N with (i + (1 + (N - 1 - i))) at 2 by lia; rewrite seq_app; cbn [Nat.add seq app]; replace (i + 1) with (S i) by lia; reflexivity).
    rewrite !map_app. cbn [map]. f_equal; [|apply (f_equal2 (fun a b => a ++ b))].
    - apply map_ext_in. intros j Hj. apply in_seq in Hj. unfold site_op. replace (j =? i) with false by (symmetry; apply Nat.eqb_neq; lia). replace (j <? i) with true by (symmetry; apply Nat.ltb_lt; lia). destruct str; reflexivity.
    - unfold site_op. rewrite Nat.eqb_refl. reflexivity.
    - apply map_ext_in. intros j Hj. apply in_seq in Hj. unfold site_op. replace (j =? i) with false by (symmetry; apply Nat.eqb_neq; lia). replace (j <? i) with false by (symmetry; apply Nat.ltb_ge; lia). reflexivity. }
  rewrite S. rewrite (pair_sum cx c0 c1 cadd cmul csub copp cx_ring cconj cconj0 cconj1 cconj_add cconj_mul) by (unfold string_op, sites; rewrite !map_length; reflexivity).
  rewrite (chain_ds t1 C1), (chain_ds t2 C2). unfold corr, applied. apply (lsum_ext cx c0 cadd). intros c' _. rewrite (lsum_mul_l cx c0 c1 cadd cmul csub copp cx_ring). apply (lsum_ext cx c0 cadd). intros c _. rewrite <- !amp_sites. ring.
Qed.
End Overlap.

(** *** the operator on the initial state *)
Section Act.
Variables (op : cg) (str : option cg).
Hypothesis Hop : square p op.
Hypothesis Hstr : match str with Some g => square p g | None => True end.
Notation acted := (acted (res cg) (t_act op) (option_map t_act str)).
Lemma act_ok : forall o t D E, square p o -> cgd t = [D; p; E] -> exists t', t_act o (Ok t) = Ok t' /\ cgd t' = [D; p; E] /\ acts cx c0 cadd cmul (op_of o) (cten_of t) (cten_of t').
Proof.
  intros o t D E Ho Ht. destruct (act_el cx c0 cadd cmul o t D p E Ho Ht) as [t' [A [B C]]]. exists t'. split; [exact A|]. split; [exact B|].
  destruct (ten_dims cx _ _ _ _ Ht) as [X0 [X1 X2]]. destruct (ten_dims cx _ _ _ _ B) as [Y0 [Y1 Y2]]. split; [congruence|]. split; [congruence|]. intros x s' y _. rewrite X1. cbn [Legs.ten_of el]. rewrite C. apply (sumn_lsum cx c0 c1 cadd cmul csub copp cx_ring).
Qed.
Lemma acted_one : forall site ts j, chain ts -> j < N -> exists t', acted site (fun i => Ok (ts i)) j = Ok t' /\ cgd t' = cgd (ts j) /\ acts cx c0 cadd cmul (site_op cx c0 c1 (str_of str) (op_of op) site j) (cten_of (ts j)) (cten_of t') /\ (site < j -> t' = ts j).
Proof.
  intros site ts j HC Hj. destruct (chain_dim ts j HC Hj) as [D [E A]]. unfold TdvpSpec.acted, site_op. destruct (Nat.eqb_spec j site) as [->|Nj].
  - destruct (act_ok op _ _ _ Hop A) as [t' [P [Q R]]]. exists t'. split; [exact P|]. split; [congruence|]. split; [exact R|lia].
  - destruct (Nat.ltb_spec j site) as [Lj|Lj].
    + destruct str as [g|]; cbn [str_of option_map].
      * destruct (act_ok g _ _ _ Hstr A) as [t' [P [Q R]]]. exists t'. split; [exact P|]. split; [congruence|]. split; [exact R|lia].
      * exists (ts j). split; [reflexivity|]. split; [reflexivity|]. split; [apply (acts_id cx c0 c1 cadd cmul csub copp cx_ring)|lia].
    + exists (ts j). split; [reflexivity|]. split; [reflexivity|]. split; [apply (acts_id cx c0 c1 cadd cmul csub copp cx_ring)|reflexivity].
Qed.
Lemma acted_ok : forall site rs ts, site < N -> holds rs ts -> chain ts -> exists ta, holds (acted site rs) ta /\ chain ta /\
  (forall i, site < i < N -> ta i = ts i) /\ forall c, In c (configs ds) -> amp N ta c = capplied ds (cstring N (str_of str) (op_of op) site) (amp N ts) c.
Proof.
  intros site rs ts Hs HR HC. set (ta := fun j => match acted site (fun i => Ok (ts i)) j with Ok t => t | _ => ts j end).
  assert (P : forall j, j < N -> acted site (fun i => Ok (ts i)) j = Ok (ta j) /\ cgd (ta j) = cgd (ts j) /\ acts cx c0 cadd cmul (site_op cx c0 c1 (str_of str) (op_of op) site j) (cten_of (ts j)) (cten_of (ta j)) /\ (site < j -> ta j = ts j)).
  { intros j Hj. destruct (acted_one site ts j HC Hj) as [t' [A B]]. unfold ta. rewrite A. auto. }
  exists ta. split; [|split; [|split]].
  - intros j Hj. rewrite <- (proj1 (P j Hj)). unfold TdvpSpec.acted. rewrite (HR j Hj). reflexivity.
  - apply chain_iff in HC. apply chain_iff. destruct HC as [HS [HF [HW HD]]].
    assert (DD : forall j, j < N -> d0 (cten_of (ta j)) = d0 (cten_of (ts j)) /\ d1 (cten_of (ta j)) = d1 (cten_of (ts j)) /\ d2 (cten_of (ta j)) = d2 (cten_of (ts j))).
    { intros j Hj. cbn [Legs.ten_of d0 d1 d2]. rewrite (proj1 (proj2 (P j Hj))). auto. }
    split; [|split; [|split; [exact HW|]]].
    + intros j Hj. destruct (HS j Hj) as [a [q [b [m [n [U V]]]]]]. exists a, q, b, m, n. rewrite (proj1 (proj2 (P j Hj))). auto.
    + assert (G : forall l x y, (forall j, In j l -> j < N) -> fit cx x (map (fun i => cten_of (ts i)) l) y -> fit cx x (map (fun i => cten_of (ta i)) l) y).
      { induction l as [|j l IH]; intros x y Hl H; [exact H|]. cbn [map EffHamSpec.fit] in *. destruct (DD j (Hl j (or_introl eq_refl))) as [-> [_ ->]]. destruct H as [H H']. split; [exact H|]. apply IH; [|exact H']. intros i Hi. apply Hl. right. exact Hi. }
      apply G; [|exact HF]. intros j Hj. apply in_seq in Hj. lia.
    + rewrite <- HD. unfold sites. rewrite !map_map. apply map_ext_in. intros j Hj. apply in_seq in Hj. apply DD. lia.
  - intros i Hi. apply P; lia.
  - intros c Ic. unfold applied. rewrite amp_sites. rewrite <- (chain_ds ts HC) in Ic.
    rewrite (acts_mat cx c0 c1 cadd cmul csub copp cx_ring (cstring N (str_of str) (op_of op) site) (tens N ts) (tens N ta)) by
      (exact Ic || (unfold string_op, sites; assert (Q : forall j, In j (seq 0 N) -> j < N) by (intros j Hj; apply in_seq in Hj; lia); revert Q; generalize (seq 0 N) as l; induction l as [|j l IH]; intros Q; cbn [map]; constructor; [apply P; apply Q; left; reflexivity|apply IH; intros i Hi; apply Q; right; exact Hi])).
    rewrite (chain_ds ts HC). apply (lsum_ext cx c0 cadd). intros k _. rewrite amp_sites. reflexivity.
Qed.
End Act.
End Chain.
