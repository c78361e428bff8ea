(** Facts about the dynamic farms of the distributed DMRG. *)
From Coq Require Import List Arith Lia Bool Permutation.
From Verif Require Import Mpi MpiStar Farm FarmFacts Farm2.
Import ListNotations.

(** a list built from the workers *)
Section Lists.
Variables (L A : Type) (k : L -> list A) (W : nat).
Definition fl (g : nat -> L) : list A := flat_map (fun w => k (g w)) (seq 1 W).
Lemma fl_change : forall g g' w, 1 <= w <= W -> (forall w', 1 <= w' -> w' <= W -> w' <> w -> g' w' = g w') ->
  exists r, Permutation (fl g) (k (g w) ++ r) /\ Permutation (fl g') (k (g' w) ++ r).
Proof.
  intros g g' w Hw E. destruct (flat_change A W (fun w => k (g w)) (fun w' => if (w' =? 0) || (W <? w') then k (g w') else k (g' w')) w Hw) as [r [P1 P2]].
  { intros w' N. destruct (Nat.eqb_spec w' 0) as [->|]; auto. destruct (Nat.ltb_spec W w'); auto. cbn. rewrite E by (auto; lia). auto. }
  exists r. split; [exact P1|]. destruct (Nat.eqb_spec w 0); [lia|]. destruct (Nat.ltb_spec W w); [lia|]. cbn in P2.
  assert (Q : fl g' = flat_map (fun w' => if (w' =? 0) || (W <? w') then k (g w') else k (g' w')) (seq 1 W)).
  { unfold fl. rewrite !flat_map_concat_map. f_equal. apply map_ext_in. intros y Hy. apply in_seq in Hy. destruct (Nat.eqb_spec y 0); [lia|]. destruct (Nat.ltb_spec W y); [lia|auto]. }
  rewrite Q. exact P2.
Qed.
Lemma fl_same : forall g g' w, 1 <= w <= W -> (forall w', 1 <= w' -> w' <= W -> w' <> w -> g' w' = g w') -> k (g' w) = k (g w) -> Permutation (fl g') (fl g).
Proof. intros g g' w Hw E K. destruct (fl_change g g' w Hw E) as [r [P1 P2]]. rewrite P1, P2, K. auto. Qed.
Lemma fl_all : forall g, (forall w, 1 <= w <= W -> k (g w) = []) -> fl g = [].
Proof.
  intros g H. unfold fl. rewrite flat_map_concat_map, (map_ext_in _ (fun _ => [])) by (intros w Hw; apply in_seq in Hw; apply H; lia).
  rewrite <- flat_map_concat_map. apply flat_none.
Qed.
Lemma fl_len : forall g, (forall w, length (k (g w)) <= 1) -> length (fl g) <= W.
Proof.
  intros g H. unfold fl. rewrite <- (seq_length W 1) at 2. induction (seq 1 W) as [|x l IH]; cbn; auto. rewrite app_length. specialize (H x). lia.
Qed.
Lemma fl_full : forall g w, (forall w, length (k (g w)) <= 1) -> length (fl g) = W -> 1 <= w <= W -> k (g w) <> [].
Proof.
  intros g w H E Hw K. destruct (workers_split W w Hw) as [l1 [l2 [S _]]].
  assert (Len : forall l, length (flat_map (fun w => k (g w)) l) <= length l).
  { induction l as [|x l IH]; cbn; auto. rewrite app_length. specialize (H x). lia. }
  unfold fl in E. assert (E2 : length (seq 1 W) = W) by apply seq_length. rewrite S in E, E2. rewrite flat_map_app in E. cbn in E. rewrite K in E. cbn in E. rewrite !app_length in *. cbn in E2.
  pose proof (Len l1). pose proof (Len l2). lia.
Qed.
Lemma fl_less : forall g, length (fl g) < W -> exists w, 1 <= w <= W /\ k (g w) = [].
Proof.
  intros g H. unfold fl in H. rewrite <- (seq_length W 1) in H at 2.
  assert (X : forall l, length (flat_map (fun w => k (g w)) l) < length l -> exists w, In w l /\ k (g w) = []).
  { induction l as [|x l IH]; cbn; intros Hl; [lia|]. destruct (k (g x)) as [|y ys] eqn:E; [exists x; auto|]. cbn in Hl. rewrite app_length in Hl. destruct IH as [w [I J]]; [lia|]. exists w. auto. }
  destruct (X _ H) as [w [I J]]. apply in_seq in I. exists w. split; [lia|auto].
Qed.
End Lists.

Section Facts2.
Variable X : Type.
Variables (W T ng : nat) (pre : bool).
Variable msgs : nat -> nat -> list (nat * gval X).
Variable h : list (gval X) -> X.
Variable x0 : X.
Notation loc2 := (loc2 X). Notation gval := (gval X).
Notation prog := (dprog X W T ng pre msgs h x0).
Notation sync := (sync loc2 gval prog (S W)).
Notation dround := (dround X W T pre). Notation dinit := (dinit X W T pre).
Hypothesis HW : 1 <= W.
Hypothesis Hpre : pre = true -> W < T.
Variable vals : nat -> list gval.
Hypothesis H_vals : forall w t, map snd (msgs w t) = vals t.
Hypothesis H_ne : forall w t, msgs w t <> [].
Hypothesis H_want : forall w t p1 m p2, msgs w t = p1 ++ m :: p2 -> want ng w (map snd p1) = Some (fst m).
Hypothesis H_end : forall w t, want ng w (vals t) = None.

Definition out2 (l : loc2) : list nat := match l with ERes t _ _ => [t] | _ => [] end.
Definition hist2 (l : loc2) : list (nat * list gval) := match l with ETask hi | EGet _ _ hi | ERes _ _ hi | EDone hi => hi | _ => [] end.
Definition don2 (l : loc2) : list unit := match l with EDone _ => [tt] | _ => [] end.
Notation outs := (fl loc2 nat out2 W). Notation hists := (fl loc2 (nat * list gval) hist2 W). Notation dones := (fl loc2 unit don2 W).
Definition busy (l : loc2) : Prop := (l = EInv /\ pre = false) \/ exists t hi, l = ERes t (h (vals t)) hi /\ t < T.
Definition cls (j w : nat) (l : loc2) : Prop := if pre && (j <? w) then l = ETask [] else busy l \/ exists hi, l = EDone hi.
Definition good2 (rs : list (nat * X)) : Prop := forall m, In m rs -> snd m = h (vals (fst m)).
Definition core (g : nat -> loc2) (j : nat) (rs : list (nat * X)) : Prop :=
  good2 rs /\ Permutation (map fst rs ++ outs g) (seq 0 (min j T)) /\ Permutation (hists g) (map (fun t => (t, vals t)) (seq 0 (min j T))) /\ length (dones g) = j - T.
Inductive G2 (g : nat -> loc2) : Prop :=
  | G2Recv : forall j rs, g 0 = DRecv j rs -> j < T + W -> (pre = true -> W <= j) -> (forall w, 1 <= w -> w <= W -> cls j w (g w)) -> core g j rs -> G2 g
  | G2Task : forall j rs w hi, g 0 = DTask j rs w -> j < T + W -> 1 <= w -> w <= W -> (pre = true -> j < W -> w = j + 1) -> g w = ETask hi ->
      (forall w', 1 <= w' -> w' <= W -> w' <> w -> cls j w' (g w')) -> core g j rs -> G2 g
  | G2Str : forall j rs w p1 ms hi, g 0 = DStr j rs w ms -> ms <> [] -> j < T -> 1 <= w -> w <= W -> (pre = true -> j < W -> w = j + 1) -> msgs w j = p1 ++ ms -> g w = EGet j (map snd p1) hi ->
      (forall w', 1 <= w' -> w' <= W -> w' <> w -> cls j w' (g w')) -> core g j rs -> G2 g
  | G2Done : forall rs, g 0 = DDone rs -> (forall w, 1 <= w -> w <= W -> exists hi, g w = EDone hi) -> core g (T + W) rs -> G2 g.

Lemma dprog_0 : forall l, prog 0 l = dmaster X W T pre msgs l.
Proof. reflexivity. Qed.
Lemma dprog_w : forall p l, p <> 0 -> prog p l = dworker X T ng pre h x0 p l.
Proof. intros p l H. unfold dprog. destruct (Nat.eqb_spec p 0); [lia|auto]. Qed.
Lemma round_cases : forall j rs, (T + W <= j /\ dround j rs = DDone rs) \/ (j < T + W /\ pre = true /\ j < W /\ dround j rs = DTask j rs (j + 1)) \/ (j < T + W /\ (pre = true -> W <= j) /\ dround j rs = DRecv j rs).
Proof.
  intros j rs. unfold Farm2.dround. destruct (Nat.ltb_spec j (T + W)); [|auto]. destruct pre; cbn [andb].
  - destruct (Nat.ltb_spec j W) as [Y|Y]; [right; left; auto|right; right]. split; [auto|]. split; auto.
  - right; right. split; [auto|]. split; [discriminate|auto].
Qed.
Lemma cls_next : forall j w w' l, 1 <= w' -> w' <= W -> w' <> w -> (pre = true -> j < W -> w = j + 1) -> cls j w' l -> cls (j + 1) w' l.
Proof.
  intros j w w' l H1 H2 N Hp H. unfold cls in *. destruct pre; cbn [andb] in *; auto. specialize (Hp eq_refl).
  revert H. destruct (Nat.ltb_spec j w'), (Nat.ltb_spec (j + 1) w'); auto; [|lia]. exfalso. assert (w = j + 1) by (apply Hp; lia). lia.
Qed.
Lemma cls_busy : forall j w l, cls j w l -> (forall hi, l <> ETask hi) -> busy l \/ exists hi, l = EDone hi.
Proof. intros j w l H N. unfold cls in H. destruct (pre && (j <? w)); auto. subst. exfalso. eapply N. reflexivity. Qed.
Lemma busy_cls : forall j w l, (pre = true -> w <= j) -> busy l -> cls j w l.
Proof. intros j w l H B. unfold cls. destruct pre; cbn [andb]; auto. destruct (Nat.ltb_spec j w); auto. specialize (H eq_refl). lia. Qed.
Lemma don_le : forall (g : nat -> loc2) w, length (don2 (g w)) <= 1.
Proof. intros g w. destruct (g w); cbn; lia. Qed.
Lemma core_same : forall g g' j rs w, 1 <= w <= W -> (forall w', 1 <= w' -> w' <= W -> w' <> w -> g' w' = g w') ->
  out2 (g' w) = out2 (g w) -> hist2 (g' w) = hist2 (g w) -> don2 (g' w) = don2 (g w) -> core g j rs -> core g' j rs.
Proof.
  intros g g' j rs w Hw E K1 K2 K3 [C1 [C2 [C3 C4]]]. split; [auto|]. split; [rewrite (fl_same _ _ out2 W g g' w Hw E K1); auto|].
  split; [rewrite (fl_same _ _ hist2 W g g' w Hw E K2); auto|]. rewrite (Permutation_length (fl_same _ _ don2 W g g' w Hw E K3)). auto.
Qed.
Lemma sync_inv2 : forall g g', sync g g' -> exists p d t v l so to k, p < S W /\ d < S W /\ p <> d /\ prog p (g p) = ASend d t v l /\ prog d (g d) = ARecv so to k /\ fits so p = true /\ fits to t = true /\ g' = setl (setl g p l) d (k p t v).
Proof. intros g g' H. inversion H as [p d t v l so to k H1 H2 H3 H4 H5 H6 H7]; subst. exists p, d, t, v, l, so, to, k. repeat (split; [assumption|]). reflexivity. Qed.
Lemma worker_sends : forall p l d t v l', p <> 0 -> prog p l = ASend d t v l' -> d = 0.
Proof. intros p l d t v l' H E. rewrite dprog_w in E by auto. destruct l; cbn in E; try discriminate; try (inversion E; auto; fail). destruct (want ng p got); discriminate. Qed.
Lemma msgs_hd : forall w (t : nat), want ng w ([] : list gval) <> None.
Proof. intros w t E. destruct (msgs w t) as [|m ms] eqn:M; [apply (H_ne w t); auto|]. pose proof (H_want w t [] m ms M) as Q. cbn in Q. congruence. Qed.

Lemma G2_sync : forall g g', G2 g -> sync g g' -> G2 g'.
Proof.
  intros g g' HG HS. destruct (sync_inv2 g g' HS) as [p [d [t [v [l [so [to [k [Hp [Hd [N [E1 [E2 [F1 [F2 ->]]]]]]]]]]]]]]]. clear HS.
  assert (GE : forall x y, setl (setl g p x) d y d = y) by (intros; apply setl_eq).
  assert (GP : forall x y, setl (setl g p x) d y p = x) by (intros; rewrite setl_ne by auto; apply setl_eq).
  assert (GO : forall x y w, w <> p -> w <> d -> setl (setl g p x) d y w = g w) by (intros; rewrite !setl_ne by auto; auto).
  destruct HG as [j rs E0 Hj Hpj Hc C|j rs w hi E0 Hj Hw1 Hw2 Hpj Ew Hc C|j rs w p1 ms hi E0 Hms Hj Hw1 Hw2 Hpj Hm Ew Hc C|rs E0 Hd' C].
  - (* receiving *)
    destruct (Nat.eq_dec p 0) as [->|Hp0]; [rewrite dprog_0, E0 in E1; discriminate|].
    pose proof (worker_sends _ _ _ _ _ _ Hp0 E1). subst d. rewrite dprog_0, E0 in E2. cbv beta iota delta [dmaster] in E2. inversion E2; subst so to k. clear E2 F1 F2.
    rewrite dprog_w in E1 by auto.
    destruct (cls_busy j p (g p) (Hc p ltac:(lia) ltac:(lia))) as [[[Q Qp]|[t' [hi [Q Qt]]]]|[hi Q]]; [intros hi Q; rewrite Q in E1; discriminate| | |rewrite Q in E1; discriminate].
    + rewrite Q in E1. cbv beta iota delta [dworker] in E1. inversion E1; subst t v l. clear E1. cbv beta iota in *.
      destruct (Nat.ltb_spec (final_signal T) T) as [Hx|_]; [unfold final_signal in Hx; lia|]. rewrite Qp in *.
      set (g1 := setl (setl g p (ETask [])) 0 (DTask j rs p)).
      apply (G2Task g1 j rs p []); [apply GE|auto|lia|lia|intros ? ?; congruence|apply GP| |].
      * intros w' W1 W2 W3. unfold g1. rewrite GO by lia. apply Hc; auto.
      * apply (core_same g g1 j rs p); [lia|intros; apply GO; lia| | | |exact C]; unfold g1; rewrite GP, Q; auto.
    + rewrite Q in E1. cbv beta iota delta [dworker] in E1. inversion E1; subst t v l. clear E1. cbv beta iota in *.
      destruct (Nat.ltb_spec t' T) as [_|Hx]; [|lia].
      set (g1 := setl (setl g p (ETask hi)) 0 (DTask j (rs ++ [(t', h (vals t'))]) p)).
      apply (G2Task g1 j (rs ++ [(t', h (vals t'))]) p hi); [apply GE|auto|lia|lia|intros Hx Hy; specialize (Hpj Hx); lia|apply GP| |].
      * intros w' W1 W2 W3. unfold g1. rewrite GO by lia. apply Hc; auto.
      * destruct C as [C1 [C2 [C3 C4]]]. assert (HE : forall w', 1 <= w' -> w' <= W -> w' <> p -> g1 w' = g w') by (intros; apply GO; lia).
        assert (Gp1 : g1 p = ETask hi) by apply GP.
        split; [|split; [|split]].
        -- intros m Hm. apply in_app_or in Hm. destruct Hm as [Hm|[<-|[]]]; auto.
        -- destruct (fl_change _ _ out2 W g g1 p ltac:(lia) HE) as [r [P1 P2]]. rewrite Q in P1. rewrite Gp1 in P2. cbn in P1, P2.
           rewrite map_app. cbn. rewrite <- app_assoc. cbn. rewrite P2, <- P1. exact C2.
        -- rewrite (fl_same _ _ hist2 W g g1 p); [exact C3|lia|exact HE|rewrite Gp1, Q; auto].
        -- rewrite (Permutation_length (fl_same _ _ don2 W g g1 p ltac:(lia) HE ltac:(rewrite Gp1, Q; auto))). exact C4.
  - (* sending a task or the end *)
    destruct (Nat.eq_dec p 0) as [->|Hp0].
    2:{ exfalso. pose proof (worker_sends _ _ _ _ _ _ Hp0 E1). subst d. rewrite dprog_0, E0 in E2. cbn [dmaster] in E2. destruct (j <? T); discriminate. }
    rewrite dprog_0, E0 in E1. cbv beta iota delta [dmaster] in E1. destruct (Nat.ltb_spec j T) as [HT|HT].
    + inversion E1; subst d t v l. clear E1. rewrite dprog_w, Ew in E2 by lia. cbv beta iota delta [dworker] in E2. inversion E2; subst so to k. clear E2 F1 F2. cbv beta iota in *.
      assert (Hq : quit T pre j = false) by (unfold quit; destruct pre; [apply Nat.leb_gt; lia|apply Nat.ltb_ge; lia]). rewrite Hq.
      unfold dgot. destruct (want ng w []) as [tag|] eqn:Hwant; [|exfalso; apply (msgs_hd w j); auto].
      unfold dnext. destruct (msgs w j) as [|m ms] eqn:Hm; [exfalso; apply (H_ne w j); auto|].
      set (g1 := setl (setl g 0 (DStr j rs w (m :: ms))) w (EGet j [] hi)).
      apply (G2Str g1 j rs w [] (m :: ms) hi); [apply GP|discriminate|auto|auto|auto|auto|auto|apply GE| |].
      * intros w' W1 W2 W3. unfold g1. rewrite GO by lia. apply Hc; auto.
      * apply (core_same g g1 j rs w); [lia|intros; apply GO; lia| | | |exact C]; unfold g1; rewrite GE, Ew; auto.
    + inversion E1; subst d t v l. clear E1. rewrite dprog_w, Ew in E2 by lia. cbv beta iota delta [dworker] in E2. inversion E2; subst so to k. clear E2 F1 F2. cbv beta iota in *.
      assert (Hq : quit T pre (final_signal T) = true) by (unfold quit, final_signal; destruct pre; [apply Nat.leb_le; lia|apply Nat.ltb_lt; lia]). rewrite Hq.
      set (g1 := setl (setl g 0 (dround (j + 1) rs)) w (EDone hi)).
      assert (HE : forall w', 1 <= w' -> w' <= W -> w' <> w -> g1 w' = g w') by (intros; apply GO; lia).
      assert (Gw : g1 w = EDone hi) by apply GE. assert (G0 : g1 0 = dround (j + 1) rs) by apply GP.
      assert (C' : core g1 (j + 1) rs).
      { destruct C as [C1 [C2 [C3 C4]]]. rewrite (Nat.min_r j T) in C2, C3 by lia. unfold core. rewrite (Nat.min_r (j + 1) T) by lia.
        split; [auto|]. split; [rewrite (fl_same _ _ out2 W g g1 w); [exact C2|lia|exact HE|rewrite Gw, Ew; auto]|].
        split; [rewrite (fl_same _ _ hist2 W g g1 w); [exact C3|lia|exact HE|rewrite Gw, Ew; auto]|].
        destruct (fl_change _ _ don2 W g g1 w ltac:(lia) HE) as [r [P1 P2]]. rewrite Ew in P1. rewrite Gw in P2. apply Permutation_length in P1, P2. rewrite app_length in P1, P2. cbn in P1, P2. lia. }
      assert (Hc' : forall w', 1 <= w' -> w' <= W -> cls (j + 1) w' (g1 w')).
      { intros w' W1 W2. destruct (Nat.eq_dec w' w) as [->|Nw].
        - rewrite Gw. unfold cls. destruct pre; cbn [andb]; [|right; exists hi; auto]. specialize (Hpre eq_refl). destruct (Nat.ltb_spec (j + 1) w); [lia|]. right. exists hi. auto.
        - rewrite HE by auto. apply (cls_next j w); auto. }
      destruct (round_cases (j + 1) rs) as [[R1 R2]|[[R1 [R3 [R4 R2]]]|[R1 [R3 R2]]]]; rewrite R2 in G0.
      * apply (G2Done g1 rs); auto.
        -- intros w' W1 W2. pose proof (fl_full _ _ don2 W g1 w' (don_le g1)) as Q. destruct C' as [_ [_ [_ C4]]]. specialize (Q ltac:(lia) ltac:(lia)).
           destruct (g1 w') as [| | | | | | | |hi'|]; cbn in Q; try congruence. exists hi'. auto.
        -- replace (T + W) with (j + 1) by lia. auto.
      * specialize (Hpre R3). lia.
      * apply (G2Recv g1 (j + 1) rs); auto.
  - (* sending the groups *)
    destruct (Nat.eq_dec p 0) as [->|Hp0].
    2:{ exfalso. pose proof (worker_sends _ _ _ _ _ _ Hp0 E1). subst d. rewrite dprog_0, E0 in E2. destruct ms; discriminate. }
    rewrite dprog_0, E0 in E1. destruct ms as [|m ms]; [congruence|]. cbv beta iota delta [dmaster] in E1. inversion E1; subst d t v l. clear E1.
    rewrite dprog_w, Ew in E2 by lia. cbv beta iota delta [dworker] in E2. pose proof (H_want w j p1 m ms Hm) as Q. rewrite Q in E2. inversion E2; subst so to k. clear E2 F1 F2. cbv beta iota in *.
    assert (Hm' : msgs w j = (p1 ++ [m]) ++ ms) by (rewrite <- app_assoc; auto).
    replace (map snd p1 ++ [snd m]) with (map snd (p1 ++ [m])) by (rewrite map_app; auto).
    destruct ms as [|m2 ms].
    + rewrite app_nil_r in Hm'. rewrite <- Hm', H_vals. unfold dgot. rewrite H_end. cbn [dnext].
      set (g1 := setl (setl g 0 (dround (j + 1) rs)) w (ERes j (h (vals j)) (hi ++ [(j, vals j)]))).
      assert (HE : forall w', 1 <= w' -> w' <= W -> w' <> w -> g1 w' = g w') by (intros; apply GO; lia).
      assert (Gw : g1 w = ERes j (h (vals j)) (hi ++ [(j, vals j)])) by apply GE. assert (G0 : g1 0 = dround (j + 1) rs) by apply GP.
      assert (C' : core g1 (j + 1) rs).
      { destruct C as [C1 [C2 [C3 C4]]]. rewrite (Nat.min_l j T) in C2, C3 by lia. unfold core. rewrite (Nat.min_l (j + 1) T) by lia. replace (j + 1) with (S j) by lia. rewrite seq_S. cbn [Nat.add].
        split; [auto|]. split; [|split].
        - destruct (fl_change _ _ out2 W g g1 w ltac:(lia) HE) as [r [P1 P2]]. rewrite Ew in P1. rewrite Gw in P2. cbn in P1, P2.
          rewrite P2, <- C2, P1. rewrite <- app_assoc. apply Permutation_app_head. apply Permutation_cons_append.
        - destruct (fl_change _ _ hist2 W g g1 w ltac:(lia) HE) as [r [P1 P2]]. rewrite Ew in P1. rewrite Gw in P2. cbn [hist2] in P1, P2.
          rewrite P2, map_app, <- C3, P1. cbn. rewrite <- !app_assoc. apply Permutation_app_head. apply Permutation_app_comm.
        - rewrite (Permutation_length (fl_same _ _ don2 W g g1 w ltac:(lia) HE ltac:(rewrite Gw, Ew; auto))). lia. }
      assert (B : busy (g1 w)) by (right; exists j, (hi ++ [(j, vals j)]); split; [auto|lia]).
      destruct (round_cases (j + 1) rs) as [[R1 R2]|[[R1 [R3 [R4 R2]]]|[R1 [R3 R2]]]]; rewrite R2 in G0; [lia| |].
      * specialize (Hpj R3 ltac:(lia)).
        assert (Q2 : g1 (j + 1 + 1) = ETask []).
        { rewrite HE by lia. pose proof (Hc (j + 1 + 1) ltac:(lia) ltac:(lia) ltac:(lia)) as Q2. unfold cls in Q2. rewrite R3 in Q2. replace (j <? j + 1 + 1) with true in Q2 by (symmetry; apply Nat.ltb_lt; lia). exact Q2. }
        apply (G2Task g1 (j + 1) rs (j + 1 + 1) []); auto; [lia|lia|].
        intros w' W1 W2 W3. destruct (Nat.eq_dec w' w) as [->|Nw]; [apply busy_cls; auto; lia|]. rewrite HE by auto. apply (cls_next j w); auto.
      * apply (G2Recv g1 (j + 1) rs); auto.
        intros w' W1 W2. destruct (Nat.eq_dec w' w) as [->|Nw]; [apply busy_cls; auto; intros Hx; specialize (R3 Hx); lia|]. rewrite HE by auto. apply (cls_next j w); auto.
    + cbn [dnext]. pose proof (H_want w j (p1 ++ [m]) m2 ms Hm') as Q2. unfold dgot. rewrite Q2.
      set (g1 := setl (setl g 0 (DStr j rs w (m2 :: ms))) w (EGet j (map snd (p1 ++ [m])) hi)).
      apply (G2Str g1 j rs w (p1 ++ [m]) (m2 :: ms) hi); [apply GP|discriminate|auto|auto|auto|auto|auto|apply GE| |].
      * intros w' W1 W2 W3. unfold g1. rewrite GO by lia. apply Hc; auto.
      * apply (core_same g g1 j rs w); [lia|intros; apply GO; lia| | | |exact C]; unfold g1; rewrite GE, Ew; auto.
  - exfalso. destruct (Nat.eq_dec p 0) as [->|Hp0]; [rewrite dprog_0, E0 in E1; discriminate|]. pose proof (worker_sends _ _ _ _ _ _ Hp0 E1). subst d. rewrite dprog_0, E0 in E2. discriminate.
Qed.

Lemma G2_init : G2 dinit.
Proof.
  assert (I : forall w, 1 <= w -> dinit w = if pre then ETask [] else EInv) by (intros w Hw; unfold Farm2.dinit; destruct (Nat.eqb_spec w 0); [lia|auto]).
  assert (C : core dinit 0 []).
  { split; [intros m []|]. cbn [Nat.min map seq app]. split; [|split].
    - rewrite fl_all; [auto|]. intros w Hw. rewrite I by lia. destruct pre; auto.
    - rewrite fl_all; [auto|]. intros w Hw. rewrite I by lia. destruct pre; auto.
    - rewrite fl_all; [auto|]. intros w Hw. rewrite I by lia. destruct pre; auto. }
  assert (E0 : dinit 0 = dround 0 []) by reflexivity.
  destruct (round_cases 0 []) as [[R1 R2]|[[R1 [R3 [R4 R2]]]|[R1 [R3 R2]]]]; rewrite R2 in E0; [lia| |].
  - apply (G2Task dinit 0 [] (0 + 1) []); [exact E0|exact R1|lia|lia|auto|rewrite I, R3 by lia; auto| |exact C].
    intros w' W1 W2 W3. rewrite I, R3 by lia. unfold cls. rewrite R3. replace (0 <? w') with true by (symmetry; apply Nat.ltb_lt; lia). reflexivity.
  - assert (Hf : pre = false) by (destruct pre; auto; specialize (R3 eq_refl); lia).
    apply (G2Recv dinit 0 []); auto. intros w W1 W2. rewrite I, Hf by lia. unfold cls. rewrite Hf. left. left. auto.
Qed.
Lemma shape2 : worker_shape loc2 gval prog W.
Proof.
  intros w l H1 H2. rewrite dprog_w by lia. destruct l; cbn; auto; [split; [auto|discriminate]|]. destruct (want ng w got); auto. split; [auto|discriminate].
Qed.
Lemma G2_safe : forall g, G2 g -> safe loc2 gval prog W g.
Proof.
  intros g HG. split.
  - intros d t v l E. rewrite dprog_0 in E.
    destruct HG as [j rs E0 Hj Hpj Hc C|j rs w hi E0 Hj Hw1 Hw2 Hpj Ew Hc C|j rs w p1 ms hi E0 Hms Hj Hw1 Hw2 Hpj Hm Ew Hc C|rs E0 Hd' C]; rewrite E0 in E; try discriminate.
    + cbv beta iota delta [dmaster] in E. destruct (j <? T); inversion E; subst d t v l; (split; [lia|]; split; [lia|]; rewrite dprog_w, Ew by lia; eexists; reflexivity).
    + destruct ms as [|m ms]; [congruence|]. cbv beta iota delta [dmaster] in E. inversion E; subst d t v l. split; [lia|]. split; [lia|]. rewrite dprog_w, Ew by lia.
      cbv beta iota delta [dworker]. rewrite (H_want w j p1 m ms Hm). eexists. reflexivity.
  - intros so to k E w0 ms0 l' m0 r H1 H2 F O K. rewrite dprog_0 in E.
    destruct HG as [j rs E0 Hj Hpj Hc C|j rs w hi E0 Hj Hw1 Hw2 Hpj Ew Hc C|j rs w p1 ms hi E0 Hms Hj Hw1 Hw2 Hpj Hm Ew Hc C|rs E0 Hd' C]; rewrite E0 in E; try discriminate.
    + cbv beta iota delta [dmaster] in E. inversion E; subst so to k. destruct ms0; cbn in K; [discriminate|]. inversion K; subst. auto.
    + cbn [dmaster] in E. destruct (j <? T); discriminate.
    + destruct ms; discriminate.
Qed.
Lemma sync_step2 : forall g p d t v l so to k, p < S W -> d < S W -> p <> d -> prog p (g p) = ASend d t v l -> prog d (g d) = ARecv so to k -> fits so p = true -> fits to t = true -> exists g', sync g g'.
Proof. intros g p d t v l so to k H1 H2 H3 H4 H5 H6 H7. eexists. exact (Syn loc2 gval prog (S W) g p d t v l so to k H1 H2 H3 H4 H5 H6 H7). Qed.
Lemma G2_prog : forall g, G2 g -> (exists g', sync g g') \/ forall p, p < S W -> prog p (g p) = AHalt.
Proof.
  intros g HG. destruct HG as [j rs E0 Hj Hpj Hc C|j rs w hi E0 Hj Hw1 Hw2 Hpj Ew Hc C|j rs w p1 ms hi E0 Hms Hj Hw1 Hw2 Hpj Hm Ew Hc C|rs E0 Hd' C].
  - left. destruct C as [_ [_ [_ C4]]]. destruct (fl_less _ _ don2 W g) as [w [Hw Kw]]; [lia|].
    pose proof (Hc w ltac:(lia) ltac:(lia)) as Q. assert (Qb : busy (g w)).
    { unfold cls in Q. destruct pre eqn:Hp; cbn [andb] in Q.
      - specialize (Hpj eq_refl). replace (j <? w) with false in Q by (symmetry; apply Nat.ltb_ge; lia). destruct Q as [Q|[hi Q]]; auto. rewrite Q in Kw. discriminate.
      - destruct Q as [Q|[hi Q]]; auto. rewrite Q in Kw. discriminate. }
    destruct Qb as [[Q1 _]|[t [hi [Q1 _]]]].
    + eapply (sync_step2 g w 0); [lia|lia|lia|rewrite dprog_w, Q1 by lia; reflexivity|rewrite dprog_0, E0; reflexivity|auto|auto].
    + eapply (sync_step2 g w 0); [lia|lia|lia|rewrite dprog_w, Q1 by lia; reflexivity|rewrite dprog_0, E0; reflexivity|auto|auto].
  - left. destruct (j <? T) eqn:HT.
    + eapply (sync_step2 g 0 w); [lia|lia|lia|rewrite dprog_0, E0; cbn [dmaster]; rewrite HT; reflexivity|rewrite dprog_w, Ew by lia; reflexivity|auto|cbn [fits]; apply Nat.eqb_refl].
    + eapply (sync_step2 g 0 w); [lia|lia|lia|rewrite dprog_0, E0; cbn [dmaster]; rewrite HT; reflexivity|rewrite dprog_w, Ew by lia; reflexivity|auto|cbn [fits]; apply Nat.eqb_refl].
  - left. destruct ms as [|m ms]; [congruence|].
    eapply (sync_step2 g 0 w); [lia|lia|lia|rewrite dprog_0, E0; reflexivity|rewrite dprog_w, Ew by lia; cbn [dworker]; rewrite (H_want w j p1 m ms Hm); reflexivity|auto|cbn [fits]; apply Nat.eqb_refl].
  - right. intros p Hp. destruct (Nat.eq_dec p 0) as [->|]; [rewrite dprog_0, E0; auto|]. destruct (Hd' p ltac:(lia) ltac:(lia)) as [hi Q]. rewrite dprog_w, Q by lia. auto.
Qed.
(** work left from round j on *)
Fixpoint left2 (k j : nat) : nat := match k with 0 => 0 | S k => 2 + (if j <? T then length (vals j) else 0) + left2 k (j + 1) end.
Definition rem2 (j : nat) : nat := left2 (T + W - j) j.
Lemma rem2_S : forall j, j < T + W -> rem2 j = 2 + (if j <? T then length (vals j) else 0) + rem2 (j + 1).
Proof. intros j H. unfold rem2. replace (T + W - j) with (S (T + W - (j + 1))) by lia. reflexivity. Qed.
Definition mu2 (g : nat -> loc2) : nat := match g 0 with DRecv j _ => rem2 j | DTask j _ _ => rem2 j - 1 | DStr j _ _ ms => rem2 (j + 1) + length ms | _ => 0 end.
Lemma round_mu : forall g j rs, g 0 = dround j rs -> mu2 g <= rem2 j.
Proof. intros g j rs E. unfold mu2. rewrite E. destruct (round_cases j rs) as [[R1 R2]|[[R1 [R3 [R4 R2]]]|[R1 [R3 R2]]]]; rewrite R2; lia. Qed.
Lemma msgs_len : forall w t, length (msgs w t) = length (vals t).
Proof. intros w t. rewrite <- (H_vals w t), map_length. auto. Qed.
Lemma mu2_dec : forall g g', G2 g -> sync g g' -> mu2 g' < mu2 g.
Proof.
  intros g g' HG HS. destruct (sync_inv2 g g' HS) as [p [d [t [v [l [so [to [k [Hp [Hd [N [E1 [E2 [F1 [F2 ->]]]]]]]]]]]]]]]. clear HS.
  destruct (Nat.eq_dec p 0) as [->|Hp0].
  - assert (G0 : forall y, setl (setl g 0 l) d y 0 = l) by (intros y; rewrite setl_ne by auto; apply setl_eq).
    rewrite dprog_0 in E1.
    destruct HG as [j rs E0 Hj Hpj Hc C|j rs w hi E0 Hj Hw1 Hw2 Hpj Ew Hc C|j rs w p1 ms hi E0 Hms Hj Hw1 Hw2 Hpj Hm Ew Hc C|rs E0 Hd' C]; rewrite E0 in E1; try discriminate.
    + cbv beta iota delta [dmaster] in E1. unfold mu2 at 2. rewrite E0. rewrite (rem2_S j Hj). destruct (Nat.ltb_spec j T).
      * inversion E1; subst d t v l. unfold mu2. rewrite G0. unfold dnext. destruct (msgs w j) as [|m ms] eqn:Hm; [exfalso; apply (H_ne w j); auto|]. rewrite <- (msgs_len w j), Hm. lia.
      * inversion E1; subst d t v l. pose proof (round_mu _ _ _ (G0 (k 0 w (GNat (final_signal T))))) as Q. lia.
    + destruct ms as [|m ms]; [congruence|]. cbv beta iota delta [dmaster] in E1. inversion E1; subst d t v l. unfold mu2 at 2. rewrite E0. cbn [length].
      destruct ms as [|m2 ms].
      * cbn [dnext] in G0. pose proof (round_mu _ _ _ (G0 (k 0 (fst m) (snd m)))) as Q. cbn [dnext]. lia.
      * unfold mu2. rewrite G0. cbn [dnext length]. lia.
  - pose proof (worker_sends _ _ _ _ _ _ Hp0 E1). subst d. unfold mu2 at 1. rewrite setl_eq. rewrite dprog_0 in E2. unfold mu2.
    destruct HG as [j rs E0 Hj Hpj Hc C|j rs w hi E0 Hj Hw1 Hw2 Hpj Ew Hc C|j rs w p1 ms hi E0 Hms Hj Hw1 Hw2 Hpj Hm Ew Hc C|rs E0 Hd' C]; rewrite E0 in E2; try discriminate.
    + cbv beta iota delta [dmaster] in E2. inversion E2; subst so to k. rewrite E0. pose proof (rem2_S j Hj) as RS. destruct v; cbv beta iota; [lia|]. destruct (t <? T); [lia|]. destruct pre; lia.
    + cbn [dmaster] in E2. destruct (j <? T); discriminate.
    + destruct ms; discriminate.
Qed.
Definition owe2 (w : nat) (l : loc2) : nat := match l with EInv | ERes _ _ _ => 1 | _ => 0 end.
Lemma owe2_send : forall w l d t v l', 1 <= w -> w < S W -> prog w l = ASend d t v l' -> owe2 w l = S (owe2 w l').
Proof. intros w l d t v l' H1 H2 E. rewrite dprog_w in E by lia. destruct l; try discriminate; cbn in E; try (inversion E; auto; fail). destruct (want ng w got); discriminate. Qed.
Lemma owe2_max : forall g w, G2 g -> 1 <= w -> w < S W -> owe2 w (g w) <= 1.
Proof. intros g w _ _ _. destruct (g w); cbn; lia. Qed.

Lemma farm2_runs : forall n s, steps loc2 gval prog (S W) n (start dinit) s ->
  n <= 3 * rem2 0 + W /\
  (final loc2 gval prog (S W) s \/ exists s', receive loc2 gval prog (S W) s s' \/ direct loc2 gval prog (S W) s s') /\
  (final loc2 gval prog (S W) s -> exists rs hist, loc s 0 = DDone rs /\ Permutation rs (map (fun t => (t, h (vals t))) (seq 0 T)) /\
     (forall w, 1 <= w <= W -> loc s w = EDone (hist w)) /\ Permutation (flat_map hist (seq 1 W)) (map (fun t => (t, vals t)) (seq 0 T))).
Proof.
  intros n s H. pose proof G2_init as HG.
  split; [|split].
  - pose proof (bounded loc2 gval prog W shape2 G2 G2_sync G2_safe mu2 mu2_dec owe2 owe2_send 1 owe2_max n dinit s HG H) as Q.
    pose proof (round_mu dinit 0 [] eq_refl). lia.
  - exact (no_deadlock loc2 gval prog W shape2 G2 G2_sync G2_safe G2_prog n dinit s HG H).
  - intros F. destruct (steps_abs loc2 gval prog W shape2 G2 G2_sync G2_safe n dinit s HG H) as [g [HGg HA]].
    assert (Q : forall p, p < S W -> loc s p = g p) by (apply final_abs with (prog := prog) (W := W) (G := G2); auto).
    destruct F as [F _]. pose proof (F 0 ltac:(lia)) as F0. rewrite dprog_0, Q in F0 by lia.
    destruct HGg as [j rs E0 Hj Hpj Hc C|j rs w hi E0 Hj Hw1 Hw2 Hpj Ew Hc C|j rs w p1 ms hi E0 Hms Hj Hw1 Hw2 Hpj Hm Ew Hc C|rs E0 Hd' C]; rewrite E0 in F0; try discriminate.
    { cbn [dmaster] in F0. destruct (j <? T); discriminate. } { destruct ms; [congruence|discriminate]. }
    destruct C as [C1 [C2 [C3 C4]]]. rewrite Nat.min_r in C2, C3 by lia.
    exists rs, (fun w => hist2 (g w)). split; [rewrite Q by lia; auto|]. split; [|split; [|exact C3]].
    + rewrite fl_all, app_nil_r in C2 by (intros w Hw; destruct (Hd' w ltac:(lia) ltac:(lia)) as [hi E]; rewrite E; auto).
      apply (Permutation_map (fun t => (t, h (vals t)))) in C2. rewrite map_map in C2. rewrite <- C2. apply Permutation_refl'. rewrite <- (map_id rs) at 1. apply map_ext_in. intros [t x] Hm. pose proof (C1 _ Hm) as Q1. cbn in Q1. cbn. rewrite Q1. auto.
    + intros w Hw. rewrite Q by lia. destruct (Hd' w ltac:(lia) ltac:(lia)) as [hi E]. rewrite E. auto.
Qed.
End Facts2.

(** the groups as they are sent are what the worker expects *)
Section Groups.
Variable X : Type.
Definition flat_terms (g : list (X * X)) : list (gval X) := flat_map (fun it => [GTen (fst it); GTen (snd it)]) g.
Definition gvals (g : list (X * X)) : list (gval X) := GNat (length g) :: flat_terms g.
Definition tagged (id k : nat) (g : list (X * X)) : list (nat * gval X) :=
  flat_map (fun it => [(fst it * id, GTen (fst (snd it))); (fst it * id, GTen (snd (snd it)))]) (combine (seq k (length g)) g).
Lemma tagged_vals : forall id g k, map snd (tagged id k g) = flat_terms g.
Proof. intros id g. induction g as [|[a b] g IH]; intros k; cbn; auto. f_equal. f_equal. apply IH. Qed.
Lemma flat_terms_len : forall g, length (flat_terms g) = 2 * length g.
Proof. induction g as [|a g IH]; cbn; auto. unfold flat_terms in IH. rewrite IH. lia. Qed.
Lemma gmsgs_vals : forall id g, map snd (gmsgs id g) = gvals g.
Proof. intros id g. unfold gmsgs, gvals. cbn [map snd]. f_equal. apply (tagged_vals id g 0). Qed.
(** the tag of the message behind p1 *)
Lemma tagged_tag : forall id g k p1 m p2, tagged id k g = p1 ++ m :: p2 -> length p1 < 2 * length g /\ fst m = (k + length p1 / 2) * id.
Proof.
  intros id g. induction g as [|[a b] g IH]; intros k p1 m p2 H; [destruct p1; discriminate|]. unfold tagged in H. cbn [length combine seq flat_map fst snd app] in H.
  destruct p1 as [|q1 p1]; cbn [app] in H.
  - inversion H. subst. cbn [length]. split; [lia|]. cbn [fst]. f_equal. cbn. lia.
  - injection H as <- H. destruct p1 as [|q2 p1]; cbn [app] in H.
    + inversion H. subst. cbn [length]. split; [lia|]. cbn [fst]. f_equal. cbn. lia.
    + injection H as <- H. destruct (IH (S k) p1 m p2 H) as [L E]. cbn [length]. split; [lia|]. rewrite E. f_equal.
      replace (S (S (length p1))) with (length p1 + 1 * 2) by lia. rewrite Nat.div_add by lia. lia.
Qed.
Lemma app_split : forall (A : Type) (a b p q : list A), a ++ b = p ++ q -> (exists r, p = a ++ r /\ b = r ++ q) \/ (exists x r, a = p ++ x :: r /\ q = x :: r ++ b).
Proof.
  induction a as [|x a IH]; intros b p q H; cbn in H; [left; exists p; auto|]. destruct p as [|y p]; cbn in H.
  - right. exists x, a. auto.
  - injection H as -> H. destruct (IH b p q H) as [[r [-> ->]]|[z [r [-> ->]]]]; [left; exists r; auto|right; exists z, r; auto].
Qed.
Lemma want_group : forall ng p (g : list (X * X)) r, want (S ng) p (gvals g ++ r) = want ng p r.
Proof.
  intros ng p g r. unfold gvals. cbn [app want]. rewrite app_length, flat_terms_len. destruct (Nat.ltb_spec (2 * length g + length r) (2 * length g)); [lia|].
  rewrite <- (flat_terms_len g). rewrite skipn_app, skipn_all, Nat.sub_diag. cbn [app skipn]. auto.
Qed.
Lemma gmsgs_want : forall ng id (g : list (X * X)) p1 m p2, gmsgs id g = p1 ++ m :: p2 -> want (S ng) id (map snd p1) = Some (fst m).
Proof.
  intros ng id g p1 m p2 H. unfold gmsgs in H. destruct p1 as [|q p1]; [injection H as <- H; reflexivity|]. cbn [app] in H. injection H as <- H.
  destruct (tagged_tag id g 0 p1 m p2 H) as [L E]. cbn [map snd want]. rewrite map_length. destruct (Nat.ltb_spec (length p1) (2 * length g)); [|lia]. rewrite E. auto.
Qed.
(** one group *)
Lemma want_one : forall id (g : list (X * X)) p1 m p2, gmsgs id g = p1 ++ m :: p2 -> want 1 id (map snd p1) = Some (fst m).
Proof. intros. eapply gmsgs_want; eauto. Qed.
Lemma want_one_end : forall id (g : list (X * X)), want 1 id (gvals g) = None.
Proof. intros id g. rewrite <- (app_nil_r (gvals g)), want_group. auto. Qed.
(** two groups *)
Lemma want_two : forall id (g1 g2 : list (X * X)) p1 m p2, gmsgs id g1 ++ gmsgs id g2 = p1 ++ m :: p2 -> want 2 id (map snd p1) = Some (fst m).
Proof.
  intros id g1 g2 p1 m p2 H. destruct (app_split _ _ _ _ _ H) as [[r [E1 E2]]|[x [r [E1 E2]]]].
  - rewrite E1, map_app, gmsgs_vals, want_group. eapply gmsgs_want; eauto.
  - injection E2 as E2 E3. subst x. eapply gmsgs_want; eauto.
Qed.
Lemma want_two_end : forall id (g1 g2 : list (X * X)), want 2 id (gvals g1 ++ gvals g2) = None.
Proof. intros. rewrite want_group. apply want_one_end. Qed.
End Groups.
