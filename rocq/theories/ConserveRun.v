(** Two-site TDVP without truncation keeps norm and energy; two-site VMPS without truncation never raises the energy. *)
From Coq Require Import List Arith Bool Lia QArith Qreals Reals Lra Ring_theory.
From Verif Require Import Base Disk SweepSpec NoiseSpec Tdvp TdvpSpec TdvpFacts TdvpRun FiniteMps FmpsSpec FmpsFacts EffHam EffHamSpec EffHamFacts ChainSpec ChainFacts Legs VmpsLocal VmpsSpec VmpsEnv VmpsHeff Lanczos LanczosSpec KrylovSpec Cx KrylovInst GVec GVecFacts DmrgStep ChainOne ChainPair ChainUpdate DmrgVarSpec DmrgVar ConserveSpec ConserveFacts.
Import ListNotations.
Local Open Scope nat_scope.

(** *** the orthogonality center follows the substeps *)
Section Walk.
Variable N : nat.
Inductive walk : nat -> list sub -> nat -> Prop :=
| walk_nil : forall c, walk c [] c
| walk_two : forall c (rt : bool) l t ss m, l + 1 < N -> (c = l \/ c = l + 1) -> walk (if rt then l + 1 else l) ss m -> walk c (Two rt l t :: ss) m
| walk_one : forall j t ss m, j < N -> walk j ss m -> walk j (One j t :: ss) m.
Lemma walk_app : forall ss c m ss' n, walk c ss m -> walk m ss' n -> walk c (ss ++ ss') n.
Proof. induction ss as [|s ss IH]; intros c m ss' n H H'; inversion H; subst; [exact H'| |]; cbn [app]; constructor; eauto. Qed.
Lemma walk_firstn : forall ss c m j, walk c ss m -> exists m', walk c (firstn j ss) m'.
Proof.
  induction ss as [|s ss IH]; intros c m [|j] H; cbn [firstn]; try (exists c; constructor). inversion H; subst; match goal with W : walk _ ss m |- _ => destruct (IH _ _ j W) as [m' P] end; exists m'; constructor; auto.
Qed.
Lemma walk_out : forall tau n i c, (c = i \/ c = i + 1) -> i + n + 1 < N -> 1 <= n ->
  walk c (flat_map (fun i => [Two true i (tau / 2)%Q; One (i + 1) (- tau / 2)%Q]) (seq i n)) (i + n).
Proof.
  intros tau. induction n as [|n IH]; intros i c HC HN Hn; [lia|]. cbn [seq flat_map app]. apply walk_two; [lia|auto|]. apply walk_one; [lia|].
  destruct n as [|n]; [replace (i + 1) with (i + 1) by lia; constructor|]. replace (i + S (S n)) with (S i + S n) by lia. replace (i + 1) with (S i) by lia. apply IH; lia.
Qed.
Lemma walk_back : forall tau n, n + 1 < N -> 1 <= n ->
  walk n (flat_map (fun j => [One j (- tau / 2)%Q; Two (j =? 1) (j - 1) (tau / 2)%Q]) (rev (seq 1 n))) 1.
Proof.
  intros tau. induction n as [|n IH]; intros HN Hn; [lia|]. rewrite seq_S, rev_app_distr. cbn [rev app flat_map Nat.add]. apply walk_one; [lia|]. apply walk_two; [lia|lia|].
  destruct n as [|n]; [cbn; constructor|]. replace (S (S n) =? 1) with false by reflexivity. replace (S (S n) - 1) with (S n) by lia. apply IH; lia.
Qed.
Lemma walk_schedule : forall tau c, 3 <= N -> c <= 1 -> walk c (schedule N tau) 1.
Proof.
  intros tau c HN Hc. unfold schedule. apply walk_app with (m := N - 2).
  - pose proof (walk_out tau (N - 2) 0 c) as P. apply P; lia.
  - apply walk_app with (m := N - 2); [|apply walk_back; lia]. apply walk_two; [lia|lia|]. constructor.
Qed.
End Walk.

Section Run.
Variable N : nat.
Variable ws : nat -> cg.
Variable ds : list nat.
Hypothesis HH : hermitian_chain N ws ds.
Variables (stev : list real -> list real -> list real * list real) (maxit : nat) (size : list nat -> nat) (svd : nat -> cg -> cg * cg * cg).
Hypothesis ES : exact_gsvd svd.
Hypothesis Hmax : 2 <= maxit.
Notation chain := (chain N ws ds). Notation sq_norm := (sq_norm N). Notation energy_val := (energy_val N ws). Notation holds := (holds N). Notation center_at := (center_at N).
Notation lenv := (left_env (res cg) (res cg) w_triv (w_grow ws)). Notation renv := (right_env (res cg) (res cg) w_triv (w_grow ws) N).

Lemma set_center : forall ts l a b (rt : bool) c, l + 1 < N -> center_at c ts -> (c = l \/ c = l + 1) -> (if rt then cleft (cten_of a) else cright (cten_of b)) ->
  center_at (if rt then l + 1 else l) (fset (fset ts l a) (l + 1) b).
Proof.
  intros ts l a b rt c Hl [ML MR] HC CA. unfold fset. split; intros i Hi; destruct (Nat.eqb_spec i (l + 1)) as [->|N1]; try (destruct (Nat.eqb_spec i l) as [->|N2]); try (destruct rt; auto; lia);
    try (apply ML; destruct rt; lia); apply MR; destruct rt; lia.
Qed.
Lemma set_holds : forall rs ts l a b, holds rs ts -> holds (fset (fset rs l (Ok a)) (l + 1) (Ok b)) (fset (fset ts l a) (l + 1) b).
Proof. intros rs ts l a b H i Hi. unfold fset. destruct (i =? l + 1); [reflexivity|]. destruct (i =? l); [reflexivity|]. apply H. exact Hi. Qed.

Section Tdvp.
Variable far : list cx -> list cx -> bool.
Notation evo := (t_evo ws stev maxit size svd far). Notation back := (t_back ws stev maxit size far).
Notation evolve := (evolve (res cg) (res cg) w_triv (w_grow ws) evo back N).
Notation sub_lapack := (sub_lapack N ws stev maxit size far). Notation subs_lapack := (subs_lapack N ws stev maxit size svd far). Notation steps_lapack := (steps_lapack N ws stev maxit size svd far).
Lemma two_ok : forall rt l t c rs ts, l + 1 < N -> (c = l \/ c = l + 1) -> holds rs ts -> chain ts -> center_at c ts -> sq_norm ts <> c0 -> sub_lapack (Two rt l t) rs ->
  exists ts', holds (evolve rs (Two rt l t)) ts' /\ chain ts' /\ center_at (if rt then l + 1 else l) ts' /\ sq_norm ts' = sq_norm ts /\ energy_val ts' = energy_val ts.
Proof.
  intros rt l t c rs ts Hl HCc HR HC HCen NZ HLA. assert (HCen' := HCen). destruct HCen' as [ML MR].
  destruct (two_problem N ws ds HH svd ES ts l HC Hl) as [el [er [x [z [L1 [R1 [X1 [Z1 [MH [NV [EV SP]]]]]]]]]]]; [intros; apply ML; lia|intros; apply MR; lia|].
  cbv zeta in *. assert (LE : lenv rs l = Ok el) by (rewrite (lenv_lenvs N ws rs ts l) by (auto; lia); exact L1).
  assert (RE : renv rs (N - (l + 2)) = Ok er) by (rewrite (renv_renvs N ws rs ts) by (auto; lia); replace (N - (N - (l + 2))) with (l + 2) by lia; exact R1).
  assert (T1 : rs l = Ok (ts l)) by (apply HR; lia). assert (T2 : rs (l + 1) = Ok (ts (l + 1))) by (apply HR; lia).
  specialize (HLA el (ts l) (ts (l + 1)) er x LE T1 T2 RE X1).
  destruct (g_expmv_ok (cgd x) (h_two ws l el er (cgd x)) MH stev maxit (size (cgd x)) Hmax (Q2R t) far (cge x)) as [r [g [RUN [G1 G2]]]]; [rewrite NV; exact NZ|exact HLA|].
  destruct (SP rt g) as [a [b [S1 [S2 [S3 [S4 S5]]]]]].
  exists (fset (fset ts l a) (l + 1) b). split; [|split; [exact S2|split; [exact (set_center ts l a b rt c Hl HCen HCc S3)|split]]].
  - unfold TdvpSpec.evolve. rewrite LE, RE, T1, T2. unfold t_evo. cbn [bind]. rewrite X1. cbn [bind]. rewrite Z1. cbn [bind]. rewrite RUN. cbn [bind]. rewrite S1. cbn [both]. apply set_holds. exact HR.
  - rewrite S4, G1. exact NV.
  - rewrite S5, G2. exact EV.
Qed.
Lemma one_ok : forall j t rs ts, j < N -> holds rs ts -> chain ts -> center_at j ts -> sq_norm ts <> c0 -> sub_lapack (One j t) rs ->
  exists ts', holds (evolve rs (One j t)) ts' /\ chain ts' /\ center_at j ts' /\ sq_norm ts' = sq_norm ts /\ energy_val ts' = energy_val ts.
Proof.
  intros j t rs ts Hj HR HC HCen NZ HLA.
  destruct (one_problem N ws ds HH ts j HC Hj HCen) as [el [er [z [L1 [R1 [Z1 [MH [NV [EV SP]]]]]]]]].
  cbv zeta in *. assert (LE : lenv rs j = Ok el) by (rewrite (lenv_lenvs N ws rs ts j) by (auto; lia); exact L1).
  assert (RE : renv rs (N - 1 - j) = Ok er) by (rewrite (renv_renvs N ws rs ts) by (auto; lia); replace (N - (N - 1 - j)) with (j + 1) by lia; exact R1).
  assert (T1 : rs j = Ok (ts j)) by (apply HR; lia).
  specialize (HLA el (ts j) er LE T1 RE).
  destruct (g_expmv_ok (cgd (ts j)) (h_one ws j el er (cgd (ts j))) MH stev maxit (size (cgd (ts j))) Hmax (Q2R t) far (cge (ts j))) as [r [g [RUN [G1 G2]]]]; [rewrite NV; exact NZ|exact HLA|].
  destruct (SP g) as [S2 [S4 S5]].
  exists (fset ts j (mkG cx (cgd (ts j)) g)). split; [|split; [exact S2|split; [|split]]].
  - unfold TdvpSpec.evolve. rewrite LE, RE, T1. unfold t_back. cbn [bind]. rewrite Z1. cbn [bind]. rewrite RUN. cbn [bind]. intros i Hi. unfold fset. destruct (i =? j); [reflexivity|]. apply HR. exact Hi.
  - destruct HCen as [ML MR]. unfold fset. split; intros i Hi; (destruct (Nat.eqb_spec i j) as [->|]; [lia|]); [apply ML|apply MR]; exact Hi.
  - rewrite S4, G1. exact NV.
  - rewrite S5, G2. exact EV.
Qed.
Lemma subs_ok : forall ss c m rs ts, walk N c ss m -> holds rs ts -> chain ts -> center_at c ts -> sq_norm ts <> c0 -> subs_lapack ss rs ->
  exists ts', holds (fold_left evolve ss rs) ts' /\ chain ts' /\ center_at m ts' /\ sq_norm ts' = sq_norm ts /\ energy_val ts' = energy_val ts.
Proof.
  induction ss as [|s ss IH]; intros c m rs ts HW HR HC HCen NZ HLA.
  - inversion HW; subst. exists ts. cbn. auto.
  - destruct HLA as [LA HLA]. cbn [fold_left].
    assert (exists c', walk N c' ss m /\ exists ts', holds (evolve rs s) ts' /\ chain ts' /\ center_at c' ts' /\ sq_norm ts' = sq_norm ts /\ energy_val ts' = energy_val ts) as [c' [W' [t1 [A1 [A2 [A3 [A4 A5]]]]]]].
    { inversion HW; subst.
      - eexists. split; [eassumption|]. eapply two_ok; eauto.
      - eexists. split; [eassumption|]. apply one_ok; auto. }
    destruct (IH c' m (evolve rs s) t1 W' A1 A2 A3) as [t2 [B1 [B2 [B3 [B4 B5]]]]]; [congruence|exact HLA|].
    exists t2. split; [exact B1|]. split; [exact B2|]. split; [exact B3|]. split; congruence.
Qed.
Lemma lapack_firstn : forall ss j rs, subs_lapack ss rs -> subs_lapack (firstn j ss) rs.
Proof. induction ss as [|s ss IH]; intros [|j] rs H; cbn [firstn ConserveSpec.subs_lapack] in *; auto. destruct H. auto. Qed.
(** a time step that is cut after any substep *)
Lemma prefix_ok : forall tau j c rs ts, 3 <= N -> c <= 1 -> holds rs ts -> chain ts -> center_at c ts -> sq_norm ts <> c0 -> subs_lapack (firstn j (schedule N tau)) rs ->
  exists ts', holds (fold_left evolve (firstn j (schedule N tau)) rs) ts' /\ chain ts' /\ sq_norm ts' = sq_norm ts /\ energy_val ts' = energy_val ts.
Proof.
  intros tau j c rs ts H3 Hc HR HC HCen NZ HLA. destruct (walk_firstn N _ _ _ j (walk_schedule N tau c H3 Hc)) as [m W].
  destruct (subs_ok _ _ _ rs ts W HR HC HCen NZ HLA) as [t' [A1 [A2 [A3 A4]]]]. exists t'. auto.
Qed.
Notation after := (after (res cg) (res cg) w_triv (w_grow ws) evo back N).
Lemma after_ok : forall tau k c rs ts, 3 <= N -> c <= 1 -> holds rs ts -> chain ts -> center_at c ts -> sq_norm ts <> c0 -> steps_lapack tau k rs ->
  exists ts', holds (after tau k rs) ts' /\ chain ts' /\ (exists c', c' <= 1 /\ center_at c' ts') /\ sq_norm ts' = sq_norm ts /\ energy_val ts' = energy_val ts.
Proof.
  intros tau k c rs ts H3 Hc HR HC HCen NZ. induction k as [|k IH]; intros HLA.
  - exists ts. cbn. repeat split; auto; try apply HC. exists c. auto.
  - destruct HLA as [LA HLA]. destruct (IH LA) as [t1 [A1 [A2 [[c' [A3 A3']] [A4 A5]]]]]. cbn [TdvpSpec.after]. unfold tau_step.
    destruct (subs_ok _ _ _ _ t1 (walk_schedule N tau c' H3 A3) A1 A2 A3') as [t2 [B1 [B2 [B3 [B4 B5]]]]]; [congruence|exact HLA|].
    exists t2. split; [exact B1|]. split; [exact B2|]. split; [exists 1; split; [lia|exact B3]|]. split; congruence.
Qed.
End Tdvp.
End Run.
