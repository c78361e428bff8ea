(** The replies of the farms satisfy what FarmFacts needs; examples. *)
From Coq Require Import List Arith Lia Bool Permutation.
From Verif Require Import Mpi MpiStar FarmSpec Farm FarmFacts.
Import ListNotations.

Lemma perm_split : forall W T l, Permutation l (seq W (T - W)) -> Permutation (seq 0 (min T W) ++ l) (seq 0 T).
Proof.
  intros W T l H. rewrite H. destruct (le_lt_dec T W).
  - replace (T - W) with 0 by lia. rewrite Nat.min_l by lia. cbn. rewrite app_nil_r. auto.
  - rewrite Nat.min_r by lia. replace T with (W + (T - W)) at 2 by lia. rewrite seq_app. auto.
Qed.
Lemma nth_error_nth0 : forall l i, i < length l -> nth_error l i = Some (nth i l 0).
Proof. intros. apply nth_error_nth'. auto. Qed.

Section Inst.
Variables X R : Type.
Variables (r0 : R) (radd : R -> R -> R).
Hypothesis HM : monoid r0 radd.
Variables (f : nat -> X) (ov : nat -> R).
Variables (W T : nat).
Hypothesis HW : 1 <= W.
Lemma rsum_msum : forall l, rsum R r0 radd l = msum r0 radd l.
Proof. induction l as [|x l IH]; auto. Qed.
Lemma farm_completes : forall reply post ts,
  (forall i, i < T - min T W -> nth_error ts i = Some (reply i)) -> length ts = T - min T W -> (forall i, T - min T W <= i < T -> T <= reply i) -> Permutation (seq 0 (min T W) ++ ts) (seq 0 T) ->
  completes (fprog X R r0 radd f ov W T reply post) (S W) (finit X R r0 ov W T post) (3 * (2 * T + 2 * min T W) + W)
    (fun l => exists rs acc, l 0 = MDone rs acc /\ once T f rs /\ (post = true -> acc = over_tasks r0 radd T ov) /\ forall w, 1 <= w <= W -> l w = WDone).
Proof.
  intros reply post ts H1 H2 H3 H4 n s HS. destruct HM as [M1 M2 M3].
  destruct (farm_runs X R r0 radd M1 M2 M3 f ov W T reply post ts H1 H2 H3 H4 (or_introl HW) n s HS) as [B [D F]].
  split; [exact B|]. split; [exact D|]. intros Z. destruct (F Z) as [rs [acc [E1 [E2 [E3 E4]]]]]. exists rs, acc. split; [auto|]. split; [exact E2|]. split; [|auto].
  intros Hp. rewrite (E3 Hp). apply rsum_msum.
Qed.
Lemma env_farm : forall arr last, Permutation arr (seq W (T - W)) -> T <= last ->
  completes (fprog X R r0 radd f ov W T (env_reply W T arr last) false) (S W) (finit X R r0 ov W T false) (3 * (2 * T + 2 * min T W) + W)
    (fun l => exists rs acc, l 0 = MDone rs acc /\ once T f rs /\ forall w, 1 <= w <= W -> l w = WDone).
Proof.
  intros arr last HP HL n s HS. pose proof (Permutation_length HP) as E. rewrite seq_length in E.
  destruct (farm_completes (env_reply W T arr last) false arr) with (n := n) (s := s) as [B [D F]]; auto.
  - intros i Hi. unfold env_reply. destruct (Nat.ltb_spec i (T - W)); [|lia]. apply nth_error_nth0. lia.
  - lia.
  - intros i Hi. unfold env_reply. destruct (Nat.ltb_spec i (T - W)); lia.
  - apply perm_split. auto.
  - split; [exact B|]. split; [exact D|]. intros Z. destruct (F Z) as [rs [acc [E1 [E2 [E3 E4]]]]]. exists rs, acc. auto.
Qed.
Lemma lanczos_farm : forall sorted, Permutation sorted (seq W (T - W)) ->
  completes (fprog X R r0 radd f ov W T (lanczos_reply W T sorted) true) (S W) (finit X R r0 ov W T true) (3 * (2 * T + 2 * min T W) + W)
    (fun l => exists rs, l 0 = MDone rs (over_tasks r0 radd T ov) /\ once T f rs /\ forall w, 1 <= w <= W -> l w = WDone).
Proof.
  intros arr HP n s HS. pose proof (Permutation_length HP) as E. rewrite seq_length in E.
  destruct (farm_completes (lanczos_reply W T arr) true arr) with (n := n) (s := s) as [B [D F]]; auto.
  - intros i Hi. unfold lanczos_reply. destruct (Nat.ltb_spec i (T - W)); [|lia]. apply nth_error_nth0. lia.
  - lia.
  - intros i Hi. unfold lanczos_reply. destruct (Nat.ltb_spec i (T - W)); lia.
  - apply perm_split. auto.
  - split; [exact B|]. split; [exact D|]. intros Z. destruct (F Z) as [rs [acc [E1 [E2 [E3 E4]]]]]. exists rs. rewrite <- E3 by auto. auto.
Qed.
Lemma perm_msum : forall l l', Permutation l l' -> msum r0 radd l = msum r0 radd l'.
Proof. intros l l' H. destruct HM as [M1 M2 M3]. rewrite <- !rsum_msum. apply rsum_perm; auto. Qed.
End Inst.
Lemma once_sum : forall X (x0 : X) xadd T f rs, monoid x0 xadd -> once T f rs -> msum x0 xadd (map snd rs) = over_tasks x0 xadd T f.
Proof.
  intros X x0 xadd T f rs HM H. unfold over_tasks. apply perm_msum; auto. apply (Permutation_map snd) in H. rewrite H, map_map. auto.
Qed.
(** no worker: the master waits for ever *)
Lemma no_worker : forall X R r0 radd f ov T reply post, 0 < T ->
  stuck (fprog X R r0 radd f ov 0 T reply post) 1 (start (finit X R r0 ov 0 T post)).
Proof.
  intros X R r0 radd f ov T reply post HT. assert (E : finit X R r0 ov 0 T post 0 = MRecv 0 []).
  { unfold finit, round. rewrite Nat.eqb_refl. destruct (Nat.ltb_spec 0 T); [auto|lia]. }
  split.
  - intros [F _]. specialize (F 0 ltac:(lia)). unfold start in F. cbn [loc] in F. rewrite E in F. discriminate.
  - intros s' [H|[H|H]].
    + inversion H as [p d t v l Hp E1]; subst. assert (p = 0) by lia. subst. unfold start in E1. cbn [loc] in E1. rewrite E in E1. discriminate.
    + inversion H; subst. cbn in *. discriminate.
    + inversion H as [p d t v l so to k Hp Hd N E1 E2]; subst. lia.
Qed.

(** executions can be continued to a final state *)
Lemma reaches : forall L V (prog : nat -> L -> act L V) P init bound good n s, completes prog P init bound good -> steps L V prog P n (start init) s ->
  exists m s', steps L V prog P m (start init) s' /\ final L V prog P s' /\ good (loc s').
Proof.
  intros L V prog P init bound good n s HC HS. remember (bound - n) as k eqn:E. revert n s HS E. induction k as [|k IH]; intros n s HS E.
  - destruct (HC n s HS) as [B [[F|[s' D]] Q]]; [exists n, s; auto|]. assert (HS' : steps L V prog P (S n) (start init) s') by (eapply More; [exact HS|unfold step; tauto]).
    destruct (HC _ _ HS') as [B' _]. lia.
  - destruct (HC n s HS) as [B [[F|[s' D]] Q]]; [exists n, s; auto|]. assert (HS' : steps L V prog P (S n) (start init) s') by (eapply More; [exact HS|unfold step; tauto]).
    apply (IH (S n) s' HS'). lia.
Qed.
