(** Facts about DmrgFarm.v. *)
From Coq Require Import List Arith Lia Bool Permutation.
From Verif Require Import Mpi MpiStar FarmSpec Farm FarmFacts FarmInst Farm2 Farm2Facts Gather GatherFacts DmrgFarm.
Import ListNotations.

Section DFacts.
Variable X : Type.
Lemma terms_flat : forall (g : list (X * X)) r, terms X (length g) (flat_terms X g ++ r) = Some (g, r).
Proof. induction g as [|[a b] g IH]; intros r; cbn; auto. unfold flat_terms in IH. rewrite IH. auto. Qed.
Lemma group_gvals : forall (g : list (X * X)) r, group X (gvals X g ++ r) = Some (g, r).
Proof. intros g r. unfold gvals. cbn [app group]. apply terms_flat. Qed.
Lemma group_gvals_nil : forall (g : list (X * X)), group X (gvals X g) = Some (g, []).
Proof. intros g. rewrite <- (app_nil_r (gvals X g)). apply group_gvals. Qed.
Lemma h_mul_vals : forall mul x0 b s, h_mul X mul x0 (gvals X b ++ gvals X s) = mul b s.
Proof. intros. unfold h_mul. rewrite group_gvals, group_gvals_nil. auto. Qed.
Lemma h_init_vals : forall f x0 s, h_init X f x0 (gvals X s) = f s.
Proof. intros. unfold h_init. rewrite group_gvals_nil. auto. Qed.
Variables (W T : nat) (x0 : X).
Hypothesis HW : 1 <= W.
Variables (bs sb : nat -> list (X * X)).
Variable mul : list (X * X) -> list (X * X) -> X.
(** messages of one execution *)
Definition mul_size : nat := rem2 X W T (fun t => gvals X (bs t) ++ gvals X (sb t)) 0.
Definition init_size : nat := rem2 X W T (fun t => gvals X (sb t)) 0.
Definition ftask (t : nat) : X := mul (bs t) (sb t).
(** the workers' tables partition the tasks, and every worker keeps the groups of its tasks *)
Definition tables_good (l : nat -> loc2 X) : Prop :=
  Permutation (flat_map (table_of X l) (seq 1 W)) (seq 0 T) /\ (forall w t, 1 <= w <= W -> In t (table_of X l w) -> kept X l w t = Some (bs t, sb t)) /\ (forall w, 1 <= w <= W -> exists hist, l w = EDone hist).
Lemma mul_completes : completes (mul_prog X W T bs sb mul x0) (S W) (mul_init X W T) (3 * mul_size + W)
  (fun l => exists rs, l 0 = DDone rs /\ once T ftask rs /\ tables_good l).
Proof.
  intros n s H.
  destruct (farm2_runs X W T 2 false (msgs_mul X bs sb) (h_mul X mul x0) x0 HW ltac:(discriminate) (fun t => gvals X (bs t) ++ gvals X (sb t))) with (n := n) (s := s) as [B [P F]].
  - intros w t. unfold msgs_mul. rewrite map_app, !gmsgs_vals. auto.
  - intros w t. unfold msgs_mul, gmsgs. discriminate.
  - intros w t p1 m p2 E. eapply want_two; eauto.
  - intros w t. apply want_two_end.
  - exact H.
  - split; [exact B|]. split; [exact P|]. intros Z. destruct (F Z) as [rs [hist [E1 [E2 [E3 E4]]]]]. exists rs. split; [auto|]. split.
    + unfold once. rewrite E2. apply Permutation_refl'. apply map_ext. intros t. unfold ftask. rewrite h_mul_vals. auto.
    + assert (TE : forall w, 1 <= w <= W -> table_of X (loc s) w = map fst (hist w)) by (intros w Hw; unfold table_of; rewrite E3 by auto; auto).
      split; [|split].
      * rewrite flat_map_concat_map, (map_ext_in _ (fun w => map fst (hist w))) by (intros w Hw; apply in_seq in Hw; apply TE; lia). rewrite <- flat_map_concat_map.
        assert (Q : flat_map (fun w => map fst (hist w)) (seq 1 W) = map fst (flat_map hist (seq 1 W))) by (rewrite !flat_map_concat_map, concat_map, map_map; auto).
        rewrite Q, E4, map_map. cbn [fst]. rewrite map_id. auto.
      * intros w t Hw Ht. rewrite TE in Ht by auto. unfold kept. rewrite E3 by auto.
        destruct (find (fun e => fst e =? t) (hist w)) as [e|] eqn:Ef.
        -- apply find_some in Ef. destruct Ef as [I J]. apply Nat.eqb_eq in J.
           assert (K : In e (map (fun t => (t, gvals X (bs t) ++ gvals X (sb t))) (seq 0 T))) by (eapply Permutation_in; [exact E4|apply in_flat_map; exists w; split; [apply in_seq; lia|auto]]).
           apply in_map_iff in K. destruct K as [t' [<- _]]. cbn [fst snd] in *. subst t'. rewrite group_gvals, group_gvals_nil. auto.
        -- exfalso. apply in_map_iff in Ht. destruct Ht as [e [J I]]. pose proof (find_none _ _ Ef e I) as Q. cbn in Q. apply Nat.eqb_neq in Q. auto.
      * intros w Hw. exists (hist w). auto.
Qed.
Lemma many_completes : forall f, W < T -> completes (many_prog X W T sb f x0) (S W) (many_init X W T) (3 * init_size + W)
  (fun l => exists rs, l 0 = DDone rs /\ once T (fun t => f (sb t)) rs /\ forall w, 1 <= w <= W -> exists hist, l w = EDone hist).
Proof.
  intros f HT n s H.
  destruct (farm2_runs X W T 1 true (msgs_init X sb) (h_init X f x0) x0 HW ltac:(auto) (fun t => gvals X (sb t))) with (n := n) (s := s) as [B [P F]].
  - intros w t. unfold msgs_init. rewrite gmsgs_vals. auto.
  - intros w t. unfold msgs_init, gmsgs. discriminate.
  - intros w t p1 m p2 E. eapply want_one; eauto.
  - intros w t. apply want_one_end.
  - exact H.
  - split; [exact B|]. split; [exact P|]. intros Z. destruct (F Z) as [rs [hist [E1 [E2 [E3 E4]]]]]. exists rs. split; [auto|]. split.
    + unfold once. rewrite E2. apply Permutation_refl'. apply map_ext. intros t. rewrite h_init_vals. auto.
    + intros w Hw. exists (hist w). auto.
Qed.
Lemma few_completes_x : forall f, T <= W -> completes (few_prog X T sb f x0) (S W) (few_init X T sb) (3 * remi X T (fun t => gvals X (sb t)) 0 + W)
  (fun l => l 0 = IDone (map (fun t => (t, f (sb t))) (seq 0 T)) /\ forall w, 1 <= w <= W -> l w = JDone).
Proof.
  intros f HT n s H.
  destruct (few_completes X W T (msgs_init X sb) (h_init X f x0) 1 HT (fun t => gvals X (sb t))) with (n := n) (s := s) as [B [P F]].
  - intros w t. unfold msgs_init. rewrite gmsgs_vals. auto.
  - intros w t. unfold msgs_init, gmsgs. discriminate.
  - intros w t p1 m p2 E. eapply want_one; eauto.
  - intros w t. apply want_one_end.
  - exact H.
  - split; [exact B|]. split; [exact P|]. intros Z. destruct (F Z) as [E1 E2]. split; [|exact E2]. rewrite E1. f_equal. apply map_ext. intros t. rewrite h_init_vals. auto.
Qed.
Section Sums.
Variable xadd : X -> X -> X.
Hypothesis HM : monoid x0 xadd.
Lemma msum_app : forall l l', msum x0 xadd (l ++ l') = xadd (msum x0 xadd l) (msum x0 xadd l').
Proof. destruct HM as [M1 M2 M3]. induction l as [|a l IH]; intros l'; cbn; [rewrite M3; auto|]. unfold msum in IH. rewrite IH, M2. auto. Qed.
Lemma fold_left_msum : forall l a, fold_left xadd l a = xadd a (msum x0 xadd l).
Proof. destruct HM as [M1 M2 M3]. induction l as [|b l IH]; intros a; cbn; [rewrite M1, M3; auto|]. rewrite IH. unfold msum. rewrite M2. auto. Qed.
Lemma sub_sum_msum : forall (m : nat -> X) ts, sub_sum x0 xadd m ts = msum x0 xadd (map m ts).
Proof. intros m [|t ts]; cbn; auto. rewrite fold_left_msum. auto. Qed.
Lemma sub_total : forall (m : nat -> X) (tb : nat -> list nat) l, msum x0 xadd (map (fun w => sub_sum x0 xadd m (tb w)) l) = msum x0 xadd (map m (flat_map tb l)).
Proof. intros m tb l. induction l as [|w l IH]; auto. cbn [map flat_map]. rewrite map_app, msum_app, <- IH, <- sub_sum_msum. auto. Qed.
Lemma sub_ext : forall (m m' : nat -> X) ts, (forall t, In t ts -> m t = m' t) -> sub_sum x0 xadd m ts = sub_sum x0 xadd m' ts.
Proof. intros m m' ts H. rewrite !sub_sum_msum. f_equal. apply map_ext_in. auto. Qed.
Lemma static_total : forall l, tables_good l -> msum x0 xadd (map (fun w => sub_sum x0 xadd (kept_mul X mul x0 l w) (table_of X l w)) (seq 1 W)) = over_tasks x0 xadd T ftask.
Proof.
  intros l [HP [HK _]]. rewrite (map_ext_in _ (fun w => sub_sum x0 xadd ftask (table_of X l w))).
  - rewrite sub_total. unfold over_tasks. apply perm_msum; auto. apply Permutation_map. auto.
  - intros w Hw. apply in_seq in Hw. apply sub_ext. intros t Ht. unfold kept_mul. rewrite (HK w t) by (auto; lia). auto.
Qed.
Lemma static_completes_x : forall R (r0 : R) radd (ip : X -> R) l, monoid r0 radd -> (forall x y, ip (xadd x y) = radd (ip x) (ip y)) -> ip x0 = r0 -> tables_good l ->
  completes (sprog X R r0 radd W) (S W) (static_init X r0 W xadd mul x0 ip l) (10 * W)
    (fun f => exists xs, f 0 = SDone xs (ip (over_tasks x0 xadd T ftask)) /\ msum x0 xadd xs = over_tasks x0 xadd T ftask /\ forall w, 1 <= w <= W -> f w = SOut []).
Proof.
  intros R r0 radd ip l [M1 M2 M3] Hip Hip0 HG n s H.
  set (sub := fun w => sub_sum x0 xadd (kept_mul X mul x0 l w) (table_of X l w)).
  destruct (static_completes X R r0 radd M1 M2 M3 W sub (fun w => ip (sub w)) n s H) as [B [P F]].
  split; [exact B|]. split; [exact P|]. intros Z. destruct (F Z) as [xs [E1 [E2 E3]]]. exists xs. pose proof (static_total l HG) as E. fold sub in E. split; [|split; [|exact E3]].
  - rewrite E1. f_equal. rewrite <- E. clear -Hip Hip0. induction (seq 1 W) as [|w ws IH]; cbn; auto. rewrite Hip. unfold msum in IH. rewrite <- IH. auto.
  - rewrite <- E. apply perm_msum; auto.
Qed.
End Sums.
Lemma grow_completes_x : forall l, tables_good l ->
  completes (kprog X T) (S W) (grow_init X T mul x0 l) ((2 * T + 2) * (2 * T) + W * (2 * T)) (fun f => exists rs, f 0 = KDone rs /\ once T ftask rs /\ forall w, 1 <= w <= W -> f w = KOut []).
Proof.
  intros l [HP [HK HD]].
  (* ranks beyond W take no part: give them an empty stream *)
  set (tb := fun w => if (1 <=? w) && (w <=? W) then table_of X l w else []).
  assert (HP' : Permutation (flat_map tb (seq 1 W)) (seq 0 T)).
  { assert (EQ : flat_map tb (seq 1 W) = flat_map (table_of X l) (seq 1 W)); [|rewrite EQ; exact HP]. rewrite !flat_map_concat_map. f_equal. apply map_ext_in. intros w Hw. apply in_seq in Hw. unfold tb. destruct (Nat.leb_spec 1 w); [|lia]. destruct (Nat.leb_spec w W); [auto|lia]. }
  assert (AG : forall w, w <= W -> grow_init X T mul x0 l w = kinit X T ftask tb w).
  { intros w Hw. unfold grow_init, kinit. destruct (Nat.eqb_spec w 0); auto. f_equal. unfold wstream, kstream, tb. destruct (Nat.leb_spec 1 w); [|lia]. destruct (Nat.leb_spec w W); [|lia]. cbn [andb].
    rewrite !flat_map_concat_map. f_equal. apply map_ext_in. intros t Ht. unfold kept_mul. rewrite (HK w t) by (auto; lia). auto. }
  (* the invariant only looks at ranks up to W *)
  intros n s H.
  assert (HG : GK X W T ftask (grow_init X T mul x0 l)).
  { apply (GK_round X W T ftask _ 0 [] tb); auto; [|intros m []]. intros w W1 W2. rewrite AG by lia. unfold kinit. destruct (Nat.eqb_spec w 0); [lia|auto]. }
  split; [|split].
  - pose proof (bounded (lock X) (gval X) (kprog X T) W (shape_k X W T) (GK X W T ftask) (GK_sync X W T ftask) (GK_safe X W T ftask) (muk X T) (muk_dec X W T ftask) (owek X) (owek_send X W T) (2 * T) (owek_max X W T ftask) n _ s HG H) as Qb.
    assert (Mu : muk X T (grow_init X T mul x0 l) <= 2 * T); [|nia]. unfold muk, grow_init. rewrite Nat.eqb_refl. unfold kround. destruct (0 <? T); lia.
  - exact (no_deadlock (lock X) (gval X) (kprog X T) W (shape_k X W T) (GK X W T ftask) (GK_sync X W T ftask) (GK_safe X W T ftask) (GK_prog X W T ftask) n _ s HG H).
  - intros F. destruct (steps_abs (lock X) (gval X) (kprog X T) W (shape_k X W T) (GK X W T ftask) (GK_sync X W T ftask) (GK_safe X W T ftask) n _ s HG H) as [g [HGg HA]].
    assert (Qf : forall p, p < S W -> loc s p = g p) by (apply final_abs with (prog := kprog X T) (W := W) (G := GK X W T ftask); first [exact HA | exact HGg | apply GK_prog | auto]).
    destruct F as [F _]. pose proof (F 0 ltac:(lia)) as F0. rewrite Qf in F0 by lia.
    destruct HGg as [i rs tb' E0 Hi Hg HPp HGd HL|i rs tb' w o E0 Hi Hw1 Hw2 Ew Hg HPp HGd HL|rs E0 Hg HPp HGd]; rewrite E0 in F0; try discriminate.
    exists rs. split; [rewrite Qf by lia; auto|]. split; [|intros w Hw; rewrite Qf by lia; apply Hg; lia].
    unfold once. apply (Permutation_map (fun t => (t, ftask t))) in HPp. rewrite map_map in HPp. rewrite <- HPp. apply Permutation_refl'. rewrite <- (map_id rs) at 1. apply map_ext_in. intros [t x] Hm. pose proof (HGd _ Hm) as Q1. cbn in Q1. cbn. rewrite Q1. auto.
Qed.
End DFacts.
