(** Facts about the task farms, communicating without buffers; MpiStar carries them over to all executions. *)
From Coq Require Import List Arith Lia Bool Permutation.
From Verif Require Import Mpi MpiStar Farm.
Import ListNotations.

(** changing one worker *)
Lemma workers_split : forall W w, 1 <= w <= W -> exists l1 l2, seq 1 W = l1 ++ w :: l2 /\ ~ In w l1 /\ ~ In w l2.
Proof.
  intros W w H. exists (seq 1 (w - 1)), (seq (S w) (W - w)). split.
  - replace W with ((w - 1) + S (W - w)) at 1 by lia. rewrite seq_app. f_equal. cbn. replace (S (w - 1)) with w by lia. reflexivity.
  - rewrite !in_seq. lia.
Qed.
Section Sums.
Variables (R : Type) (r0 : R) (radd : R -> R -> R).
Hypothesis radd_comm : forall x y, radd x y = radd y x.
Hypothesis radd_assoc : forall x y z, radd x (radd y z) = radd (radd x y) z.
Hypothesis radd_0 : forall x, radd r0 x = x.
Fixpoint rsum (l : list R) : R := match l with [] => r0 | x :: l => radd x (rsum l) end.
Lemma rsum_app : forall l l', rsum (l ++ l') = radd (rsum l) (rsum l').
Proof. induction l as [|x l IH]; cbn; intros; [rewrite radd_0; auto|]. rewrite IH, radd_assoc. auto. Qed.
Lemma rsum_perm : forall l l', Permutation l l' -> rsum l = rsum l'.
Proof.
  intros l l' H. induction H; cbn; auto; [congruence| |congruence]. rewrite !radd_assoc, (radd_comm x y). auto.
Qed.
Lemma rsum_change : forall W (h h' : nat -> R) w, 1 <= w <= W -> (forall w', w' <> w -> h' w' = h w') ->
  exists r, rsum (map h (seq 1 W)) = radd (h w) r /\ rsum (map h' (seq 1 W)) = radd (h' w) r.
Proof.
  intros W h h' w Hw E. destruct (workers_split W w Hw) as [l1 [l2 [S [N1 N2]]]]. rewrite S, !map_app. cbn. rewrite !rsum_app. cbn.
  assert (E1 : map h' l1 = map h l1) by (apply map_ext_in; intros y Hy; apply E; congruence).
  assert (E2 : map h' l2 = map h l2) by (apply map_ext_in; intros y Hy; apply E; congruence).
  exists (radd (rsum (map h l1)) (rsum (map h l2))). rewrite E1, E2. split; rewrite !radd_assoc; f_equal; apply radd_comm.
Qed.
Lemma rsum_none : forall (l : list nat), rsum (map (fun _ => r0) l) = r0.
Proof. induction l; cbn; auto. rewrite radd_0. auto. Qed.
End Sums.
Lemma flat_none : forall A B (l : list A), flat_map (fun _ => []) l = ([] : list B).
Proof. induction l; auto. Qed.
Lemma flat_change : forall A W (h h' : nat -> list A) w, 1 <= w <= W -> (forall w', w' <> w -> h' w' = h w') ->
  exists r, Permutation (flat_map h (seq 1 W)) (h w ++ r) /\ Permutation (flat_map h' (seq 1 W)) (h' w ++ r).
Proof.
  intros A W h h' w Hw E. destruct (workers_split W w Hw) as [l1 [l2 [S [N1 N2]]]]. rewrite S, !flat_map_app. cbn.
  assert (E1 : flat_map h' l1 = flat_map h l1) by (rewrite !flat_map_concat_map; f_equal; apply map_ext_in; intros y Hy; apply E; congruence).
  assert (E2 : flat_map h' l2 = flat_map h l2) by (rewrite !flat_map_concat_map; f_equal; apply map_ext_in; intros y Hy; apply E; congruence).
  exists (flat_map h l1 ++ flat_map h l2). rewrite E1, E2. split; rewrite !app_assoc; apply Permutation_app_tail; apply Permutation_app_comm.
Qed.

Lemma flat_pred : forall l, flat_map (fun w => [w - 1]) (map S l) = l.
Proof. induction l as [|x l IH]; auto. cbn [map flat_map app]. rewrite IH. f_equal. lia. Qed.
Lemma firstn_next : forall A (l : list A) i x, nth_error l i = Some x -> firstn (i + 1) l = firstn i l ++ [x].
Proof. induction l as [|y l IH]; intros i x E; [destruct i; discriminate|]. destruct i as [|i]; cbn in *; [congruence|]. f_equal. apply IH. auto. Qed.

Section Facts.
Variables X R : Type.
Variables (r0 : R) (radd : R -> R -> R).
Hypothesis radd_comm : forall x y, radd x y = radd y x.
Hypothesis radd_assoc : forall x y z, radd x (radd y z) = radd (radd x y) z.
Hypothesis radd_0 : forall x, radd r0 x = x.
Variables (f : nat -> X) (ov : nat -> R).
Variables (W T : nat) (reply : nat -> nat) (post : bool).
Notation floc := (floc X R). Notation fval := (fval X R).
Notation prog := (fprog X R r0 radd f ov W T reply post).
Notation sync := (sync floc fval prog (S W)).
Notation fin := (fin X R W T). Notation round := (round X R r0 W T post). Notation finit := (finit X R r0 ov W T post).
Notation rsum := (rsum R r0 radd).
Notation A := (min T W).
(** the replies: first the tasks no worker starts with, then values that are not tasks *)
Variable ts : list nat.
Hypothesis reply_task : forall i, i < T - A -> nth_error ts i = Some (reply i).
Hypothesis ts_len : length ts = T - A.
Hypothesis reply_stop : forall i, T - A <= i < T -> T <= reply i.
Hypothesis ts_all : Permutation (seq 0 A ++ ts) (seq 0 T).

Hypothesis HW : 1 <= W \/ T = 0.

Definition out (l : floc) : list nat := match l with WSend t _ => [t] | _ => [] end.
Definition outs (g : nat -> floc) : list nat := flat_map (fun w => out (g w)) (seq 1 W).
Definition acc_of (l : floc) : R := match l with WSend _ a | WRecv a | WFin a | WOvl a => a | _ => r0 end.
Definition accs (g : nat -> floc) : R := rsum (map (fun w => acc_of (g w)) (seq 1 W)).
Definition stopped (l : floc) : Prop := if post then exists a, l = WFin a else l = WDone.
Definition active (l : floc) : Prop := (exists t a, l = WSend t a /\ t < T) \/ stopped l.
Definition good (rs : list (nat * X)) : Prop := forall m, In m rs -> snd m = f (fst m).
Definition given (k : nat) : list nat := seq 0 A ++ firstn k ts.
Definition idle (g : nat -> floc) : Prop := forall w, A < w -> w <= W -> g w = WDone.
Inductive G (g : nat -> floc) : Prop :=
  | GRecv : forall i rs, g 0 = MRecv i rs -> i < T -> length rs = i -> good rs -> (forall w, 1 <= w <= A -> active (g w)) -> idle g ->
      Permutation (map fst rs ++ outs g) (given i) -> length (outs g) = min A (T - i) -> (post = true -> accs g = rsum (map ov (given i))) -> G g
  | GSend : forall i rs w a, g 0 = MSend i rs w -> i < T -> length rs = i + 1 -> good rs -> 1 <= w <= A -> g w = WRecv a -> (forall w', 1 <= w' <= A -> w' <> w -> active (g w')) -> idle g ->
      Permutation (map fst rs ++ outs g) (given i) -> length (outs g) + 1 = min A (T - i) -> (post = true -> accs g = rsum (map ov (given i))) -> G g
  | GFin : forall i rs acc, g 0 = MFin i rs acc -> post = true -> i < A -> good rs -> Permutation (map fst rs) (seq 0 T) -> (forall w, 1 <= w <= i -> g w = WDone) -> (forall w, i < w <= A -> exists a, g w = WFin a) -> idle g ->
      radd acc (accs g) = rsum (map ov (seq 0 T)) -> G g
  | GOvl : forall i rs acc, g 0 = MOvl i rs acc -> post = true -> i < A -> good rs -> Permutation (map fst rs) (seq 0 T) -> (forall w, 1 <= w <= i -> g w = WDone) -> (exists a, g (i + 1) = WOvl a) -> (forall w, i + 1 < w <= A -> exists a, g w = WFin a) -> idle g ->
      radd acc (accs g) = rsum (map ov (seq 0 T)) -> G g
  | GDone : forall rs acc, g 0 = MDone rs acc -> good rs -> Permutation (map fst rs) (seq 0 T) -> (forall w, 1 <= w <= W -> g w = WDone) ->
      (post = true -> acc = rsum (map ov (seq 0 T))) -> G g.

Lemma outs_change : forall g g' w, 1 <= w <= W -> (forall w', 1 <= w' -> w' <> w -> g' w' = g w') ->
  exists r, Permutation (outs g) (out (g w) ++ r) /\ Permutation (outs g') (out (g' w) ++ r).
Proof.
  intros g g' w Hw E. destruct (flat_change nat W (fun w => out (g w)) (fun w' => if w' =? 0 then out (g 0) else out (g' w')) w Hw) as [r [P1 P2]].
  { intros w' N. destruct (Nat.eqb_spec w' 0) as [->|]; auto. rewrite E by (auto; lia). auto. }
  exists r. split; [exact P1|]. destruct (Nat.eqb_spec w 0); [lia|].
  assert (Q : outs g' = flat_map (fun w' => if w' =? 0 then out (g 0) else out (g' w')) (seq 1 W)).
  { unfold outs. rewrite !flat_map_concat_map. f_equal. apply map_ext_in. intros y Hy. apply in_seq in Hy. destruct (Nat.eqb_spec y 0); [lia|auto]. }
  rewrite Q. exact P2.
Qed.
Lemma accs_change : forall g g' w, 1 <= w <= W -> (forall w', 1 <= w' -> w' <> w -> g' w' = g w') ->
  exists r, accs g = radd (acc_of (g w)) r /\ accs g' = radd (acc_of (g' w)) r.
Proof.
  intros g g' w Hw E. destruct (rsum_change R r0 radd radd_comm radd_assoc radd_0 W (fun w => acc_of (g w)) (fun w' => if w' =? 0 then acc_of (g 0) else acc_of (g' w')) w Hw) as [r [P1 P2]].
  { intros w' N. destruct (Nat.eqb_spec w' 0) as [->|]; auto. rewrite E by (auto; lia). auto. }
  exists r. split; [exact P1|]. destruct (Nat.eqb_spec w 0); [lia|]. rewrite <- P2. unfold accs. f_equal. apply map_ext_in. intros y Hy. apply in_seq in Hy. destruct (Nat.eqb_spec y 0); [lia|auto].
Qed.
Lemma accs_ext : forall g g', (forall w, 1 <= w <= W -> g' w = g w) -> accs g' = accs g.
Proof. intros g g' E. unfold accs. f_equal. apply map_ext_in. intros w Hw. apply in_seq in Hw. rewrite E by lia. auto. Qed.
Lemma outs_ext : forall g g', (forall w, 1 <= w <= W -> g' w = g w) -> outs g' = outs g.
Proof. intros g g' E. unfold outs. rewrite !flat_map_concat_map. f_equal. apply map_ext_in. intros w Hw. apply in_seq in Hw. rewrite E by lia. auto. Qed.
Lemma outs_nil_inv : forall g w, outs g = [] -> 1 <= w <= W -> out (g w) = [].
Proof.
  intros g w H Hw. destruct (workers_split W w Hw) as [l1 [l2 [S _]]]. unfold outs in H. rewrite S, flat_map_app in H. cbn in H.
  apply app_eq_nil in H. destruct H as [_ H]. apply app_eq_nil in H. tauto.
Qed.
Lemma outs_some : forall g, outs g <> [] -> exists w, 1 <= w <= W /\ out (g w) <> [].
Proof.
  intros g H. unfold outs in H. assert (X1 : forall l, flat_map (fun w => out (g w)) l <> [] -> exists w, In w l /\ out (g w) <> []).
  { induction l as [|x l IH]; cbn; intros Hl; [congruence|]. destruct (out (g x)) as [|y ys] eqn:E.
    - destruct (IH Hl) as [w [I J]]. exists w. auto.
    - exists x. split; [auto|]. rewrite E. discriminate. }
  destruct (X1 _ H) as [w [I J]]. apply in_seq in I. exists w. split; [lia|auto].
Qed.
Lemma given_all : given (T - A) = seq 0 A ++ ts.
Proof. unfold given. rewrite <- ts_len, firstn_all. auto. Qed.
Lemma given_ge : forall k, T - A <= k -> given k = seq 0 A ++ ts.
Proof. intros k H. unfold given. rewrite firstn_all2; auto. lia. Qed.
Lemma given_S : forall i, i < T - A -> given (i + 1) = given i ++ [reply i].
Proof.
  intros i H. unfold given. rewrite <- app_assoc. f_equal. apply firstn_next. auto.
Qed.
Lemma reply_lt : forall i, i < T - A -> reply i < T.
Proof.
  intros i H. pose proof (reply_task i H) as E. apply nth_error_In in E. assert (I : In (reply i) (seq 0 T)) by (eapply Permutation_in; [exact ts_all|apply in_or_app; auto]).
  apply in_seq in I. lia.
Qed.
Notation mprog := (mprog X R r0 radd W T reply post). Notation wprog := (wprog X R radd f ov T post).
Lemma prog_w : forall p l, p <> 0 -> prog p l = wprog p l.
Proof. intros p l H. unfold fprog. destruct (Nat.eqb_spec p 0); [lia|auto]. Qed.
Lemma prog_0 : forall l, prog 0 l = mprog l.
Proof. reflexivity. Qed.
Lemma G_init : G finit.
Proof.
  destruct (Nat.eq_dec T 0) as [E|HT].
  - assert (M : A = 0) by lia. assert (Q : finit 0 = MDone [] r0).
    { unfold Farm.finit, Farm.round, Farm.fin. rewrite Nat.eqb_refl. destruct (Nat.ltb_spec 0 T); [lia|]. destruct (Nat.ltb_spec 0 A); [lia|]. destruct post; auto. }
    eapply GDone; [exact Q|intros m []|rewrite E; cbn; auto| |rewrite E; auto].
    intros w Hw. unfold Farm.finit. destruct (Nat.eqb_spec w 0); [lia|]. replace (T <? w) with true by (symmetry; apply Nat.ltb_lt; lia). auto.
  - assert (Hs : forall w, 1 <= w <= A -> finit w = WSend (w - 1) (ov (w - 1))).
    { intros w Hw. unfold Farm.finit. destruct (Nat.eqb_spec w 0); [lia|]. replace (T <? w) with false by (symmetry; apply Nat.ltb_ge; lia). auto. }
    assert (Hd : forall w, A < w -> w <= W -> finit w = WDone).
    { intros w H1 H2. unfold Farm.finit. destruct (Nat.eqb_spec w 0); [lia|]. replace (T <? w) with true by (symmetry; apply Nat.ltb_lt; lia). auto. }
    assert (SW : seq 1 W = seq 1 A ++ seq (S A) (W - A)) by (replace W with (A + (W - A)) at 1 by lia; rewrite seq_app; auto).
    assert (HO : outs finit = seq 0 A).
    { unfold outs. rewrite SW, flat_map_app. rewrite !flat_map_concat_map.
      rewrite (map_ext_in (fun w => out (finit w)) (fun w => [w - 1]) (seq 1 A)) by (intros w Hw; apply in_seq in Hw; rewrite Hs by lia; auto).
      rewrite (map_ext_in (fun w => out (finit w)) (fun w => []) (seq (S A) (W - A))) by (intros w Hw; apply in_seq in Hw; rewrite Hd by lia; auto).
      rewrite <- !flat_map_concat_map. rewrite flat_none.
      rewrite app_nil_r, <- seq_shift. apply flat_pred. }
    assert (HA : accs finit = rsum (map ov (seq 0 A))).
    { unfold accs. rewrite SW, map_app.
      rewrite (map_ext_in (fun w => acc_of (finit w)) (fun w => ov (w - 1)) (seq 1 A)) by (intros w Hw; apply in_seq in Hw; rewrite Hs by lia; auto).
      rewrite (map_ext_in (fun w => acc_of (finit w)) (fun w => r0) (seq (S A) (W - A))) by (intros w Hw; apply in_seq in Hw; rewrite Hd by lia; auto).
      rewrite (rsum_app R r0 radd radd_assoc radd_0). rewrite (rsum_none R r0 radd radd_0).
      rewrite radd_comm, radd_0. f_equal. rewrite <- seq_shift, map_map. apply map_ext. intros x. f_equal. lia. }
    eapply (GRecv finit 0 []).
    + unfold Farm.finit, Farm.round. rewrite Nat.eqb_refl. destruct (Nat.ltb_spec 0 T); [auto|lia].
    + lia. + auto. + intros m [].
    + intros w Hw. left. exists (w - 1), (ov (w - 1)). split; [auto|lia].
    + exact Hd.
    + cbn. rewrite HO. unfold given. cbn. rewrite app_nil_r. auto.
    + rewrite HO, seq_length. lia.
    + intros _. rewrite HA. unfold given. cbn. rewrite app_nil_r. auto.
Qed.

Lemma fin_cases : forall i rs acc, (i < A /\ fin i rs acc = MFin i rs acc) \/ (A <= i /\ fin i rs acc = MDone rs acc).
Proof. intros i rs acc. unfold Farm.fin. destruct (Nat.ltb_spec i A); auto. Qed.
Lemma sync_inv : forall g g', sync g g' -> exists p d t v l so to k, p < S W /\ d < S W /\ p <> d /\ prog p (g p) = ASend d t v l /\ prog d (g d) = ARecv so to k /\ fits so p = true /\ fits to t = true /\ g' = setl (setl g p l) d (k p t v).
Proof. intros g g' H. inversion H as [p d t v l so to k H1 H2 H3 H4 H5 H6 H7]; subst. exists p, d, t, v, l, so, to, k. repeat (split; [assumption|]). reflexivity. Qed.
Lemma G_sync : forall g g', G g -> sync g g' -> G g'.
Proof.
  intros g g' HG HS. destruct (sync_inv g g' HS) as [p [d [t [v [l [so [to [k [Hp [Hd [N [E1 [E2 [F1 [F2 ->]]]]]]]]]]]]]]]. clear HS.
  assert (GE : forall x y, setl (setl g p x) d y d = y) by (intros; apply setl_eq).
  assert (GP : forall x y, setl (setl g p x) d y p = x) by (intros; rewrite setl_ne by auto; apply setl_eq).
  assert (GO : forall x y w, w <> p -> w <> d -> setl (setl g p x) d y w = g w) by (intros; rewrite !setl_ne by auto; auto).
  destruct HG as [i rs E0 Hi Hl Hg Ha Hid HP HO HA|i rs w a E0 Hi Hl Hg Hw Ew Ha Hid HP HO HA|i rs acc E0 Hpost Hi Hg HP Hdn Hf Hid HA|i rs acc E0 Hpost Hi Hg HP Hdn [a Ea] Hf Hid HA|rs acc E0 Hg HP Hdn HA].
  - (* waiting for a result *)
    destruct (Nat.eq_dec p 0) as [->|Hp0]; [rewrite E0 in E1; discriminate|]. rewrite prog_w in E1 by auto. destruct (Nat.eq_dec d 0) as [->|Hd0].
    2:{ exfalso. rewrite prog_w in E2 by auto. destruct (le_lt_dec d A) as [L1|L1]; [|rewrite (Hid d) in E2 by lia; discriminate].
        destruct (Ha d) as [[t' [a' [Q _]]]|Q]; [lia|rewrite Q in E2; discriminate|]. unfold stopped in Q.
        destruct (le_lt_dec p A) as [L2|L2]; [|rewrite (Hid p) in E1 by lia; discriminate].
        destruct (Ha p) as [[t' [a' [Q' _]]]|Q']; [lia|rewrite Q' in E1; inversion E1; subst; lia|]. unfold stopped in Q'.
        destruct post; [destruct Q' as [a' Q']; rewrite Q' in E1|rewrite Q' in E1]; discriminate. }
    destruct (le_lt_dec p A) as [L2|L2]; [|rewrite (Hid p) in E1 by lia; discriminate].
    destruct (Ha p) as [[t' [a' [Q' Ht]]]|Q']; [lia| |unfold stopped in Q'; destruct post; [destruct Q' as [a' Q']; rewrite Q' in E1|rewrite Q' in E1]; discriminate].
    rewrite Q' in E1. cbv beta iota delta [Farm.wprog] in E1. inversion E1; subst t v l. rewrite prog_0, E0 in E2. cbv beta iota delta [Farm.mprog] in E2. inversion E2; subst so to k. clear E1 E2 F1 F2.
    set (g1 := setl (setl g p (WRecv a')) 0 (MSend i (rs ++ [(t', f t')]) p)) in *.
    destruct (outs_change g g1 p ltac:(lia)) as [r [P1 P2]]; [intros w' W1 W2; apply GO; lia|]. rewrite Q' in P1. unfold g1 in P2 at 2. rewrite GP in P2. cbn in P1, P2.
    apply (GSend g1 i (rs ++ [(t', f t')]) p a').
    + apply GE.
    + auto.
    + rewrite app_length. cbn. lia.
    + intros m Hm. apply in_app_or in Hm. destruct Hm as [Hm|[<-|[]]]; auto.
    + lia.
    + apply GP.
    + intros w' W1 W2. unfold g1. rewrite GO by lia. apply Ha. auto.
    + intros w' W1 W2. unfold g1. rewrite GO by lia. apply Hid; auto.
    + rewrite map_app. cbn. rewrite <- app_assoc. cbn. rewrite P2. rewrite <- P1. exact HP.
    + apply Permutation_length in P1, P2. cbn in P1. lia.
    + intros Hpost. rewrite <- HA by auto. destruct (accs_change g g1 p ltac:(lia)) as [r' [R1 R2]]; [intros w' W1 W2; apply GO; lia|].
      rewrite R1, R2, Q'. unfold g1. rewrite GP. auto.
  - (* replying *)
    destruct (Nat.eq_dec d 0) as [->|Hd0]; [rewrite E0 in E2; discriminate|]. rewrite prog_w in E2 by auto.
    destruct (Nat.eq_dec p 0) as [->|Hp0].
    2:{ exfalso. rewrite prog_w in E1 by auto. destruct (Nat.eq_dec p w) as [->|Npw]; [rewrite Ew in E1; discriminate|].
        destruct (le_lt_dec p A) as [L2|L2]; [|rewrite (Hid p) in E1 by lia; discriminate].
        destruct (Ha p) as [[t' [a' [Q' _]]]|Q']; [lia|lia|rewrite Q' in E1; inversion E1; lia|].
        unfold stopped in Q'. destruct post; [destruct Q' as [a' Q']; rewrite Q' in E1|rewrite Q' in E1]; discriminate. }
    rewrite prog_0, E0 in E1. cbv beta iota delta [Farm.mprog] in E1. inversion E1; subst d t v l. rewrite Ew in E2. cbv beta iota delta [Farm.wprog] in E2. inversion E2; subst so to k. clear E1 E2 F1 F2. cbv beta iota in *.
    destruct (le_lt_dec (T - A) i) as [Hstop|Htask].
    + (* a value that is not a task *)
      assert (Hr : (reply i <? T) = false) by (apply Nat.ltb_ge, reply_stop; lia). rewrite Hr in *.
      set (lw := if post then WFin a else WDone) in *. set (g1 := setl (setl g 0 (round (i + 1) rs)) w lw).
      assert (Hlw : stopped lw) by (unfold stopped, lw; destruct post; [exists a|]; auto).
      assert (HO1 : out lw = []) by (unfold lw; destruct post; auto).
      destruct (outs_change g g1 w ltac:(lia)) as [r [P1 P2]]; [intros w' W1 W2; apply GO; lia|]. rewrite Ew in P1. unfold g1 in P2 at 2. rewrite GE, HO1 in P2. cbn in P1, P2.
      assert (Pout : Permutation (outs g1) (outs g)) by (rewrite P1, P2; auto).
      assert (Hact : forall w', 1 <= w' <= A -> active (g1 w')).
      { intros w' W1. unfold g1. destruct (Nat.eq_dec w' w) as [->|Nw]; [rewrite GE; right; auto|]. rewrite GO by lia. apply Ha; auto. }
      assert (Hid1 : idle g1) by (intros w' W1 W2; unfold g1; rewrite GO by lia; apply Hid; auto).
      assert (HA1 : post = true -> accs g1 = rsum (map ov (given (i + 1)))).
      { intros Hpost. rewrite (given_ge (i + 1)), <- (given_ge i), <- HA by (auto; lia). destruct (accs_change g g1 w ltac:(lia)) as [r' [R1 R2]]; [intros w' W1 W2; apply GO; lia|].
        rewrite R1, R2, Ew. unfold g1. rewrite GE. unfold lw. rewrite Hpost. auto. }
      assert (E01 : g1 0 = round (i + 1) rs) by apply GP. clearbody g1.
      unfold Farm.round in E01. destruct (Nat.ltb_spec (i + 1) T) as [Hi1|Hi1].
      * apply (GRecv g1 (i + 1) rs); auto; [|apply Permutation_length in Pout; lia].
        rewrite (given_ge (i + 1)), <- (given_ge i) by lia. rewrite Pout. auto.
      * assert (Z : outs g1 = []) by (apply Permutation_length in Pout; destruct (outs g1); auto; cbn in Pout; lia).
        assert (HPT : Permutation (map fst rs) (seq 0 T)).
        { rewrite <- ts_all, <- (given_ge i), <- HP by lia. apply Permutation_nil in P1 as P1' || idtac. assert (Z2 : outs g = []) by (apply Permutation_length in Pout; rewrite Z in Pout; destruct (outs g); auto; discriminate).
          rewrite Z2, app_nil_r. auto. }
        assert (Hst : forall w', 1 <= w' <= A -> stopped (g1 w')).
        { intros w' W1. destruct (Hact w' W1) as [[t' [a' [Q _]]]|Q]; auto. pose proof (outs_nil_inv g1 w' Z ltac:(lia)) as Q2. rewrite Q in Q2. discriminate. }
        assert (given_T : given (i + 1) = seq 0 A ++ ts) by (apply given_ge; lia).
        assert (SumT : rsum (map ov (given (i + 1))) = rsum (map ov (seq 0 T))).
        { rewrite given_T. apply (rsum_perm R r0 radd radd_comm radd_assoc). apply Permutation_map. auto. }
        destruct post eqn:Hpost.
        -- destruct (fin_cases 0 rs r0) as [[F1 F2]|[F1 F2]]; rewrite F2 in E01.
           ++ apply (GFin g1 0 rs r0); auto; [intros; lia| |].
              ** intros w' W1. pose proof (Hst w' ltac:(lia)) as Q. unfold stopped in Q. rewrite Hpost in Q. auto.
              ** rewrite radd_0, HA1 by auto. auto.
           ++ lia.
        -- apply (GDone g1 rs r0); auto; [|intros Hc; congruence]. intros w' W1. destruct (le_lt_dec w' A) as [L1|L1]; [|apply Hid1; lia].
           pose proof (Hst w' ltac:(lia)) as Q. unfold stopped in Q. rewrite Hpost in Q. auto.
    + (* a task *)
      assert (Hr : (reply i <? T) = true) by (apply Nat.ltb_lt, reply_lt; lia). rewrite Hr in *.
      set (lw := WSend (reply i) (radd a (ov (reply i)))) in *. set (g1 := setl (setl g 0 (round (i + 1) rs)) w lw).
      destruct (outs_change g g1 w ltac:(lia)) as [r [P1 P2]]; [intros w' W1 W2; apply GO; lia|]. rewrite Ew in P1. unfold g1 in P2 at 2. rewrite GE in P2. cbn in P1, P2.
      assert (E01 : g1 0 = MRecv (i + 1) rs) by (unfold g1; rewrite GP; unfold Farm.round; replace (i + 1 <? T) with true by (symmetry; apply Nat.ltb_lt; lia); auto).
      apply (GRecv g1 (i + 1) rs); auto.
      * lia.
      * intros w' W1. unfold g1. destruct (Nat.eq_dec w' w) as [->|Nw]; [rewrite GE; left; exists (reply i), (radd a (ov (reply i))); split; [auto|apply reply_lt; lia]|]. rewrite GO by lia. apply Ha; auto.
      * intros w' W1 W2. unfold g1. rewrite GO by lia. apply Hid; auto.
      * rewrite given_S by auto. rewrite P2. rewrite <- HP. rewrite P1. rewrite <- app_assoc. apply Permutation_app_head. apply Permutation_cons_append.
      * apply Permutation_length in P1, P2. cbn in P2. lia.
      * intros Hpost. rewrite given_S, map_app, (rsum_app R r0 radd radd_assoc radd_0), <- HA by auto.
        destruct (accs_change g g1 w ltac:(lia)) as [r' [R1 R2]]; [intros w' W1 W2; apply GO; lia|]. rewrite R1, R2, Ew. unfold g1. rewrite GE. cbn.
        rewrite (radd_comm (ov (reply i)) r0), radd_0. rewrite <- !radd_assoc. f_equal. apply radd_comm.
  - (* final signals *)
    destruct (Nat.eq_dec d 0) as [->|Hd0]; [rewrite E0 in E2; discriminate|]. rewrite prog_w in E2 by auto.
    destruct (Nat.eq_dec p 0) as [->|Hp0].
    2:{ exfalso. rewrite prog_w in E1 by auto. destruct (le_lt_dec p i) as [L1|L1]; [rewrite Hdn in E1 by lia; discriminate|]. destruct (le_lt_dec p A) as [L2|L2]; [|rewrite (Hid p) in E1 by lia; discriminate].
        destruct (Hf p ltac:(lia)) as [a' Q]. rewrite Q in E1. discriminate. }
    rewrite prog_0, E0 in E1. cbv beta iota delta [Farm.mprog] in E1. inversion E1; subst d t v l. destruct (Hf (i + 1) ltac:(lia)) as [a Ea]. rewrite Ea in E2. cbv beta iota delta [Farm.wprog] in E2. inversion E2; subst so to k. clear E1 E2 F1 F2. cbv beta iota in *.
    rewrite Nat.eqb_refl in *. set (g1 := setl (setl g 0 (MOvl i rs acc)) (i + 1) (WOvl a)).
    apply (GOvl g1 i rs acc); auto.
    + apply GP.
    + intros w' W1. unfold g1. rewrite GO by lia. apply Hdn. auto.
    + exists a. apply GE.
    + intros w' W1. unfold g1. rewrite GO by lia. apply Hf. lia.
    + intros w' W1 W2. unfold g1. rewrite GO by lia. apply Hid; lia.
    + rewrite <- HA. f_equal. destruct (accs_change g g1 (i + 1) ltac:(lia)) as [r' [R1 R2]]; [intros w' W1 W2; apply GO; lia|]. rewrite R1, R2, Ea. unfold g1. rewrite GE. auto.
  - (* overlaps *)
    destruct (Nat.eq_dec p 0) as [->|Hp0]; [rewrite E0 in E1; discriminate|]. rewrite prog_w in E1 by auto.
    assert (p = i + 1).
    { destruct (Nat.eq_dec p (i + 1)); auto. exfalso. destruct (le_lt_dec p i) as [L1|L1]; [rewrite Hdn in E1 by lia; discriminate|]. destruct (le_lt_dec p A) as [L2|L2]; [|rewrite (Hid p) in E1 by lia; discriminate].
      destruct (Hf p ltac:(lia)) as [a' Q]. rewrite Q in E1. discriminate. }
    subst p. rewrite Ea in E1. cbv beta iota delta [Farm.wprog] in E1. inversion E1; subst d t v l. rewrite prog_0, E0 in E2. cbv beta iota delta [Farm.mprog] in E2. inversion E2; subst so to k. clear E1 E2 F1 F2. cbv beta iota in *.
    set (g1 := setl (setl g (i + 1) WDone) 0 (fin (i + 1) rs (radd acc a))).
    assert (E01 : g1 0 = fin (i + 1) rs (radd acc a)) by apply GE.
    assert (D1 : forall w, 1 <= w <= i + 1 -> g1 w = WDone).
    { intros w W1. destruct (Nat.eq_dec w (i + 1)) as [->|Nw]; [apply GP|]. unfold g1. rewrite GO by lia. apply Hdn. lia. }
    assert (D2 : forall w, i + 1 < w <= A -> exists a, g1 w = WFin a) by (intros w W1; unfold g1; rewrite GO by lia; apply Hf; lia).
    assert (D3 : idle g1) by (intros w W1 W2; unfold g1; rewrite GO by lia; apply Hid; lia).
    assert (HA1 : radd (radd acc a) (accs g1) = rsum (map ov (seq 0 T))).
    { rewrite <- HA. destruct (accs_change g g1 (i + 1) ltac:(lia)) as [r' [R1 R2]]; [intros w' W1 W2; apply GO; lia|]. rewrite R1, R2, Ea. unfold g1. rewrite GP. cbn. rewrite radd_0. rewrite radd_assoc. auto. }
    clearbody g1. destruct (fin_cases (i + 1) rs (radd acc a)) as [[F1 F2]|[F1 F2]]; rewrite F2 in E01.
    + apply (GFin g1 (i + 1) rs (radd acc a)); auto.
    + apply (GDone g1 rs (radd acc a)); auto.
      * intros w W1. destruct (le_lt_dec w (i + 1)); [apply D1; lia|]. apply D3; lia.
      * intros _. rewrite <- HA1. assert (Z : accs g1 = r0); [|rewrite Z, (radd_comm _ r0), radd_0; auto].
        assert (Zg : forall w, 1 <= w <= W -> g1 w = WDone) by (intros w W1; destruct (le_lt_dec w (i + 1)); [apply D1; lia|apply D3; lia]).
        unfold accs. rewrite (map_ext_in (fun w => acc_of (g1 w)) (fun _ => r0)) by (intros w Hw; apply in_seq in Hw; rewrite Zg by lia; auto).
        apply (rsum_none R r0 radd radd_0).
  - exfalso. destruct (Nat.eq_dec p 0) as [->|Hp0]; [rewrite E0 in E1; discriminate|]. rewrite prog_w in E1 by auto. rewrite Hdn in E1 by lia. discriminate.
Qed.

(** a worker that can be reached *)
Lemma idle_done : forall g w, idle g -> A < w -> w <= W -> prog w (g w) = AHalt.
Proof. intros g w H H1 H2. rewrite prog_w, (H w) by lia. auto. Qed.
Lemma shape : worker_shape floc fval prog W.
Proof.
  intros w l H1 H2. rewrite prog_w by lia. destruct l; cbn; auto; split; auto; discriminate.
Qed.
Lemma G_safe : forall g, G g -> safe floc fval prog W g.
Proof.
  intros g HG. split.
  - intros d t v l E. destruct HG as [i rs E0 Hi Hl Hg Ha Hid HP HO HA|i rs w a E0 Hi Hl Hg Hw Ew Ha Hid HP HO HA|i rs acc E0 Hpost Hi Hg HP Hdn Hf Hid HA|i rs acc E0 Hpost Hi Hg HP Hdn [a Ea] Hf Hid HA|rs acc E0 Hg HP Hdn HA];
      rewrite prog_0, E0 in E; try discriminate; cbv beta iota delta [Farm.mprog] in E; inversion E; subst d t v l.
    + split; [lia|]. split; [lia|]. rewrite prog_w, Ew by lia. eexists. reflexivity.
    + split; [lia|]. split; [lia|]. destruct (Hf (i + 1) ltac:(lia)) as [a Ea]. rewrite prog_w, Ea by lia. eexists. reflexivity.
  - intros so to k E w ms l' m r H1 H2 F O K.
    destruct HG as [i rs E0 Hi Hl Hg Ha Hid HP HO HA|i rs w' a E0 Hi Hl Hg Hw Ew Ha Hid HP HO HA|i rs acc E0 Hpost Hi Hg HP Hdn Hf Hid HA|i rs acc E0 Hpost Hi Hg HP Hdn [a Ea] Hf Hid HA|rs acc E0 Hg HP Hdn HA];
      rewrite prog_0, E0 in E; try discriminate; cbv beta iota delta [Farm.mprog] in E; inversion E; subst so to k.
    + destruct ms; cbn in K; [discriminate|]. inversion K; subst. auto.
    + cbn [fits] in F. apply Nat.eqb_eq in F. subst w. destruct ms as [|[t1 v1] ms]; [discriminate|]. cbn [owed] in O. rewrite prog_w, Ea in O by lia. cbv beta iota delta [Farm.wprog] in O. destruct O as [<- [<- O]].
      destruct ms as [|[t2 v2] ms]; [|cbn [owed] in O; rewrite prog_w in O by lia; destruct O]. cbn [take fits fst] in K. rewrite Nat.eqb_refl in K. inversion K. auto.
Qed.
Lemma sync_step : forall g p d t v l so to k, p < S W -> d < S W -> p <> d -> prog p (g p) = ASend d t v l -> prog d (g d) = ARecv so to k -> fits so p = true -> fits to t = true -> exists g', sync g g'.
Proof. intros g p d t v l so to k H1 H2 H3 H4 H5 H6 H7. eexists. exact (Syn floc fval prog (S W) g p d t v l so to k H1 H2 H3 H4 H5 H6 H7). Qed.
Lemma G_prog : forall g, G g -> (exists g', sync g g') \/ forall p, p < S W -> prog p (g p) = AHalt.
Proof.
  intros g HG. destruct HG as [i rs E0 Hi Hl Hg Ha Hid HP HO HA|i rs w a E0 Hi Hl Hg Hw Ew Ha Hid HP HO HA|i rs acc E0 Hpost Hi Hg HP Hdn Hf Hid HA|i rs acc E0 Hpost Hi Hg HP Hdn [a Ea] Hf Hid HA|rs acc E0 Hg HP Hdn HA].
  - left. destruct (outs_some g) as [w [Hw Ho]]; [intros Z; rewrite Z in HO; cbn [length] in HO; lia|].
    destruct (g w) as [| | | | |t a| | | | |] eqn:Ew; try (exfalso; apply Ho; reflexivity).
    eapply (sync_step g w 0); [lia|lia|lia|rewrite prog_w, Ew by lia; reflexivity|rewrite prog_0, E0; reflexivity|auto|auto].
  - left. eapply (sync_step g 0 w); [lia|lia|lia|rewrite prog_0, E0; reflexivity|rewrite prog_w, Ew by lia; reflexivity|auto|cbn [fits]; apply Nat.eqb_refl].
  - left. destruct (Hf (i + 1) ltac:(lia)) as [a Ea]. eapply (sync_step g 0 (i + 1)); [lia|lia|lia|rewrite prog_0, E0; reflexivity|rewrite prog_w, Ea by lia; reflexivity|auto|cbn [fits]; apply Nat.eqb_refl].
  - left. eapply (sync_step g (i + 1) 0); [lia|lia|lia|rewrite prog_w, Ea by lia; reflexivity|rewrite prog_0, E0; reflexivity|cbn [fits]; apply Nat.eqb_refl|cbn [fits]; apply Nat.eqb_refl].
  - right. intros p Hp. destruct (Nat.eq_dec p 0) as [->|]; [rewrite prog_0, E0; auto|]. rewrite prog_w, Hdn by lia. auto.
Qed.
Definition mu (g : nat -> floc) : nat :=
  match g 0 with MRecv i _ => 2 * (T - i) + 2 * A | MSend i _ _ => 2 * (T - i) + 2 * A - 1 | MFin i _ _ => 2 * (A - i) | MOvl i _ _ => 2 * (A - i) - 1 | _ => 0 end.
Lemma mu_dec : forall g g', G g -> sync g g' -> mu g' < mu g.
Proof.
  intros g g' HG HS. destruct (sync_inv g g' HS) as [p [d [t [v [l [so [to [k [Hp [Hd [N [E1 [E2 [F1 [F2 ->]]]]]]]]]]]]]]]. clear HS.
  assert (Hw : forall w, w <> 0 -> forall d' t' v' l', prog w (g w) = ASend d' t' v' l' -> d' = 0).
  { intros w H d' t' v' l' E. rewrite prog_w in E by auto. destruct (g w); try discriminate; inversion E; auto. }
  destruct (Nat.eq_dec p 0) as [->|Hp0].
  - unfold mu at 1. rewrite setl_ne by auto. rewrite setl_eq. unfold mu. rewrite prog_0 in E1.
    destruct HG as [i rs E0 Hi Hl Hg Ha Hid HP HO HA|i rs w a E0 Hi Hl Hg Hww Ew Ha Hid HP HO HA|i rs acc E0 Hpost Hi Hg HP Hdn Hf Hid HA|i rs acc E0 Hpost Hi Hg HP Hdn [a Ea] Hf Hid HA|rs acc E0 Hg HP Hdn HA];
      rewrite E0 in E1; try discriminate; cbv beta iota delta [Farm.mprog] in E1; inversion E1; subst d t v l; rewrite E0; [|lia].
    unfold Farm.round. destruct (Nat.ltb_spec (i + 1) T); [lia|]. destruct post; [|lia]. destruct (fin_cases 0 rs r0) as [[Q1 Q2]|[Q1 Q2]]; rewrite Q2; lia.
  - pose proof (Hw p Hp0 d t v l E1). subst d. unfold mu at 1. rewrite setl_eq. unfold mu. rewrite prog_0 in E2.
    destruct HG as [i rs E0 Hi Hl Hg Ha Hid HP HO HA|i rs w a E0 Hi Hl Hg Hww Ew Ha Hid HP HO HA|i rs acc E0 Hpost Hi Hg HP Hdn Hf Hid HA|i rs acc E0 Hpost Hi Hg HP Hdn [a Ea] Hf Hid HA|rs acc E0 Hg HP Hdn HA];
      rewrite E0 in E2; try discriminate; cbv beta iota delta [Farm.mprog] in E2; inversion E2; subst so to k; rewrite E0.
    + destruct v; lia.
    + destruct v; try lia. destruct (fin_cases (i + 1) rs (radd acc r)) as [[Q1 Q2]|[Q1 Q2]]; rewrite Q2; lia.
Qed.
Definition owe (w : nat) (l : floc) : nat := match l with WSend _ _ | WOvl _ => 1 | _ => 0 end.
Lemma owe_send : forall w l d t v l', 1 <= w -> w < S W -> prog w l = ASend d t v l' -> owe w l = S (owe w l').
Proof. intros w l d t v l' H1 H2 E. rewrite prog_w in E by lia. destruct l; try discriminate; inversion E; auto. Qed.
Lemma owe_max : forall g w, G g -> 1 <= w -> w < S W -> owe w (g w) <= 1.
Proof. intros g w _ _ _. destruct (g w); cbn; lia. Qed.

(** every execution *)
Lemma farm_runs : forall n s, steps floc fval prog (S W) n (start finit) s ->
  n <= 3 * (2 * T + 2 * A) + W /\
  (final floc fval prog (S W) s \/ exists s', receive floc fval prog (S W) s s' \/ direct floc fval prog (S W) s s') /\
  (final floc fval prog (S W) s -> exists rs acc, loc s 0 = MDone rs acc /\ Permutation rs (map (fun t => (t, f t)) (seq 0 T)) /\
     (post = true -> acc = rsum (map ov (seq 0 T))) /\ forall w, 1 <= w <= W -> loc s w = WDone).
Proof.
  intros n s H. pose proof G_init as HG.
  split; [|split].
  - pose proof (bounded floc fval prog W shape G G_sync G_safe mu mu_dec owe owe_send 1 owe_max n finit s HG H) as Q.
    assert (M : mu finit <= 2 * T + 2 * A); [|lia]. clear. unfold mu, Farm.finit. rewrite Nat.eqb_refl. unfold Farm.round, Farm.fin.
    destruct (0 <? T); [lia|]. destruct post; [|lia]. destruct (0 <? A); lia.
  - exact (no_deadlock floc fval prog W shape G G_sync G_safe G_prog n finit s HG H).
  - intros F. destruct (steps_abs floc fval prog W shape G G_sync G_safe n finit s HG H) as [g [HGg HA]].
    assert (Q : forall p, p < S W -> loc s p = g p) by (apply final_abs with (prog := prog) (W := W) (G := G); auto).
    destruct F as [F _]. pose proof (F 0 ltac:(lia)) as F0. rewrite prog_0, Q in F0 by lia.
    destruct HGg as [i rs E0 Hi Hl Hg Ha Hid HP HO HA'|i rs w a E0 Hi Hl Hg Hww Ew Ha Hid HP HO HA'|i rs acc E0 Hpost Hi Hg HP Hdn Hf Hid HA'|i rs acc E0 Hpost Hi Hg HP Hdn [a Ea] Hf Hid HA'|rs acc E0 Hg HP Hdn HA'];
      rewrite E0 in F0; try discriminate.
    exists rs, acc. split; [rewrite Q by lia; auto|]. split; [|split; [auto|intros w Hw; rewrite Q by lia; auto]].
    apply (Permutation_map (fun t => (t, f t))) in HP. rewrite map_map in HP. rewrite <- HP. apply Permutation_refl'. rewrite <- (map_id rs) at 1. apply map_ext_in. intros [t x] Hm. pose proof (Hg _ Hm) as Q1. cbn in Q1. cbn. rewrite Q1. auto.
Qed.
End Facts.
