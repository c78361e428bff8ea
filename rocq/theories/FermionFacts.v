(** Proofs about fermions and string products. *)
From Coq Require Import List Arith Lia Bool Ring.
From Verif Require Import Disk DiskFacts FermionSpec MpoGen MpoSpec.
Import ListNotations.
Local Open Scope nat_scope.

(** ** Anticommutation *)
Lemma par_ext : forall n n' m, (forall k, k < m -> n k = n' k) -> par n m = par n' m.
Proof. induction m as [|m IH]; intros H; cbn; auto. rewrite IH, H; auto. Qed.
Lemma par_fset n b v a : par (fset n b v) a = if b <? a then xorb (par n a) (xorb v (n b)) else par n a.
Proof.
  induction a as [|a IH]; [reflexivity|]. cbn [par]. rewrite IH. unfold fset. destruct (Nat.eqb_spec a b) as [->|NE].
  - rewrite Nat.ltb_irrefl. replace (b <? S b) with true by (symmetry; apply Nat.ltb_lt; lia). destruct (par n b), v, (n b); auto.
  - destruct (Nat.ltb_spec b a), (Nat.ltb_spec b (S a)); try lia; auto. destruct (par n a), v, (n b), (n a); auto.
Qed.
Lemma fset_same {A} (n : nat -> A) a v : fset n a v a = v.
Proof. unfold fset. rewrite Nat.eqb_refl. auto. Qed.
Lemma fset_diff {A} (n : nat -> A) a b v : b <> a -> fset n a v b = n b.
Proof. intros. unfold fset. destruct (Nat.eqb_spec b a); congruence. Qed.
Ltac pars a b := rewrite ?par_fset; rewrite ?fset_same, ?fset_diff by auto; destruct (Nat.ltb_spec a b), (Nat.ltb_spec b a); try lia.
Ltac fin := repeat match goal with |- context [par ?n ?x] => destruct (par n x) end; cbn;
  repeat match goal with H : ?x = _ |- context [?x] => rewrite H end; cbn; auto.
Lemma swap_fset {A} (n : nat -> A) a b u v : a <> b -> forall m, fset (fset n a u) b v m = fset (fset n b v) a u m.
Proof. intros H m. unfold fset. destruct (Nat.eqb_spec m b), (Nat.eqb_spec m a); auto; congruence. Qed.
Lemma car_ac a b n : a <> b -> same_res (smul (ann a) (cre b) n) (minus (smul (cre b) (ann a) n)).
Proof.
  intros H. unfold smul, ann, cre. destruct (n a) eqn:Ea, (n b) eqn:Eb; rewrite ?fset_diff, ?Ea, ?Eb by auto; cbn; auto.
  split; [|intros; apply swap_fset; auto]. rewrite !par_fset. destruct (Nat.ltb_spec a b), (Nat.ltb_spec b a); try lia; rewrite ?Ea, ?Eb; fin.
Qed.
Lemma car_aa a b n : same_res (smul (ann a) (ann b) n) (minus (smul (ann b) (ann a) n)).
Proof.
  destruct (Nat.eq_dec a b) as [->|H].
  - unfold smul, ann. destruct (n b) eqn:E; cbn; auto. rewrite fset_same. cbn. auto.
  - unfold smul, ann. destruct (n a) eqn:Ea, (n b) eqn:Eb; rewrite ?fset_diff, ?Ea, ?Eb by auto; cbn; auto.
    split; [|intros; apply swap_fset; auto]. rewrite !par_fset. destruct (Nat.ltb_spec a b), (Nat.ltb_spec b a); try lia; rewrite ?Ea, ?Eb; fin.
Qed.
Lemma car_cc a b n : same_res (smul (cre a) (cre b) n) (minus (smul (cre b) (cre a) n)).
Proof.
  destruct (Nat.eq_dec a b) as [->|H].
  - unfold smul, cre. destruct (n b) eqn:E; cbn; auto. rewrite fset_same. cbn. auto.
  - unfold smul, cre. destruct (n a) eqn:Ea, (n b) eqn:Eb; rewrite ?fset_diff, ?Ea, ?Eb by auto; cbn; auto.
    split; [|intros; apply swap_fset; auto]. rewrite !par_fset. destruct (Nat.ltb_spec a b), (Nat.ltb_spec b a); try lia; rewrite ?Ea, ?Eb; fin.
Qed.
Lemma car_same a n : (same_res (smul (cre a) (ann a) n) (Some (false, n)) /\ smul (ann a) (cre a) n = None) \/
                     (same_res (smul (ann a) (cre a) n) (Some (false, n)) /\ smul (cre a) (ann a) n = None).
Proof.
  unfold smul, cre, ann. destruct (n a) eqn:E; [left|right]; (split; [|auto]); rewrite fset_same; cbn; (split; [rewrite par_fset, Nat.ltb_irrefl; apply xorb_nilpotent|]);
    intros m; unfold fset; destruct (Nat.eqb_spec m a); subst; auto.
Qed.

(** ** Products over the chain *)
Fixpoint xorl (k b : nat) (p : nat -> bool) : bool := match k with O => false | S k => xorb (p b) (xorl k (S b) p) end.
Lemma xorl_ext : forall k b p q, (forall i, b <= i < b + k -> p i = q i) -> xorl k b p = xorl k b q.
Proof. induction k as [|k IH]; intros b p q H; cbn; auto. rewrite (H b), (IH (S b) p q); auto; try lia. intros; apply H; lia. Qed.
Lemma xorl_S : forall k b p, xorl (S k) b p = xorb (xorl k b p) (p (b + k)).
Proof. induction k as [|k IH]; intros b p; [cbn; rewrite Nat.add_0_r; destruct (p b); auto|]. cbn [xorl] in *. rewrite IH. replace (S b + k) with (b + S k) by lia. rewrite xorb_assoc. auto. Qed.
Lemma xorl_xor : forall k b p q, xorl k b (fun i => xorb (p i) (q i)) = xorb (xorl k b p) (xorl k b q).
Proof. induction k as [|k IH]; intros; cbn; auto. rewrite IH. destruct (p b), (q b), (xorl k (S b) p), (xorl k (S b) q); auto. Qed.
Lemma xorl_false : forall k b, xorl k b (fun _ => false) = false.
Proof. induction k as [|k IH]; intros b; cbn; auto. rewrite IH. auto. Qed.
Lemma xorl_single : forall k b j (v : bool), b <= j < b + k -> xorl k b (fun i => (i =? j) && v) = v.
Proof.
  induction k as [|k IH]; intros b j v H; [lia|]. cbn [xorl]. destruct (Nat.eqb_spec b j) as [->|NE].
  - cbn. rewrite (xorl_ext _ _ _ (fun _ => false)); [|intros i Hi; destruct (Nat.eqb_spec i j); auto; lia].
    rewrite xorl_false. destruct v; auto.
  - cbn. rewrite IH by lia. destruct v; auto.
Qed.
Lemma xorl_below : forall N j p, j <= N -> xorl N 0 (fun k => (k <? j) && p k) = xorl j 0 p.
Proof.
  intros N j p H. induction N as [|N IH]; [replace j with 0 by lia; auto|]. rewrite xorl_S. cbn [Nat.add]. destruct (Nat.eq_dec j (S N)) as [->|NE].
  - replace (N <? S N) with true by (symmetry; apply Nat.ltb_lt; lia). rewrite xorl_S. cbn [Nat.add andb]. f_equal. apply xorl_ext. intros i Hi. replace (i <? S N) with true by (symmetry; apply Nat.ltb_lt; lia). auto.
  - rewrite IH by lia. destruct (Nat.ltb_spec N j); try lia. cbn. apply xorb_false_r.
Qed.
(** the sites strictly between i and j *)
Definition mid (N i j : nat) (p : nat -> bool) : bool := xorl N 0 (fun k => (i <? k) && (k <? j) && p k).
Lemma mid_par N i j p : i < j -> j < N -> xorl j 0 p = xorb (xorl i 0 p) (xorb (p i) (mid N i j p)).
Proof.
  intros H1 H2. unfold mid. rewrite <- (xorl_below N i p), <- (xorl_below N j p) by lia. rewrite <- (xorl_single N 0 i (p i)) at 1 by lia. rewrite <- !xorl_xor. apply xorl_ext. intros k Hk.
  destruct (Nat.eqb_spec k i) as [->|NE]; [destruct (Nat.ltb_spec i j); [|lia]; rewrite Nat.ltb_irrefl; cbn; destruct (p i); auto|].
  destruct (Nat.ltb_spec k j), (Nat.ltb_spec k i), (Nat.ltb_spec i k); try lia; cbn; destruct (p k); auto.
Qed.
Lemma par_sites n k : par n (2 * k) = xorl k 0 (fun i => xorb (n (mode false i)) (n (mode true i))).
Proof.
  induction k as [|k IH]; auto. rewrite xorl_S. rewrite <- IH. replace (2 * S k) with (S (S (2 * k))) by lia. cbn [par]. unfold mode. cbn [Nat.add]. replace (2 * k + 0) with (2 * k) by lia. replace (2 * k + 1) with (S (2 * k)) by lia.
  rewrite xorb_assoc. auto.
Qed.
Lemma par_mode n (d : bool) k : par n (mode d k) = xorb (xorl k 0 (fun i => xorb (n (mode false i)) (n (mode true i)))) (d && n (mode false k)).
Proof.
  rewrite <- par_sites. unfold mode. destruct d; cbn [andb].
  - replace (2 * k + 1) with (S (2 * k)) by lia. cbn [par]. replace (2 * k + 0) with (2 * k) by lia. auto.
  - replace (2 * k + 0) with (2 * k) by lia. rewrite xorb_false_r. auto.
Qed.
Lemma modes_mode up dn s d k : modes up dn s (mode d k) = if d then dn (s k) else up (s k).
Proof.
  unfold modes, mode. destruct d.
  - replace (2 * k + 1) with (S (2 * k)) by lia. rewrite Nat.odd_succ, Nat.even_mul. cbn [Nat.even orb]. rewrite Nat.div2_succ_double. auto.
  - replace (2 * k + 0) with (2 * k) by lia. rewrite Nat.odd_mul. cbn [Nat.odd Nat.even negb andb]. rewrite Nat.div2_double. auto.
Qed.
Lemma forallb_sites p N : forallb p (seq 0 (2 * N)) = forallb (fun k => p (mode false k) && p (mode true k)) (seq 0 N).
Proof.
  induction N as [|N IH]; auto. replace (2 * S N) with (S (S (2 * N))) by lia. rewrite !seq_S, !forallb_app, IH. cbn [Nat.add forallb]. unfold mode. replace (2 * N + 0) with (2 * N) by lia. replace (2 * N + 1) with (S (2 * N)) by lia.
  rewrite !andb_true_r. rewrite <- andb_assoc. auto.
Qed.
Lemma forallb_but i j p N : i < N -> j < N -> forallb p (seq 0 N) = forallb (fun k => (k =? i) || (k =? j) || p k) (seq 0 N) && p i && p j.
Proof.
  intros Hi Hj. apply eq_true_iff_eq. rewrite !andb_true_iff, !forallb_forall. split.
  - intros H. split; [split|]; [|apply H; apply in_seq; lia|apply H; apply in_seq; lia]. intros k Hk. rewrite H by auto. rewrite orb_true_r. auto.
  - intros [[H P1] P2] k Hk. specialize (H k Hk). cbn beta in H. destruct (Nat.eqb_spec k i) as [E1|E1]; [congruence|]. destruct (Nat.eqb_spec k j) as [E2|E2]; [congruence|]. exact H.
Qed.
Lemma forallb_ext_seq p q N : (forall k, k < N -> p k = q k) -> forallb p (seq 0 N) = forallb q (seq 0 N).
Proof. intros H. apply eq_true_iff_eq. rewrite !forallb_forall. split; intros G k Hk; specialize (G k Hk); apply in_seq in Hk; [rewrite <- H by lia|rewrite H by lia]; auto. Qed.

Section Ring.
Variables (R : Type) (r0 r1 : R) (radd rmul rsub : R -> R -> R) (ropp : R -> R).
Variable Rth : ring_theory r0 r1 radd rmul rsub ropp (@eq R).
Add Ring Rr : Rth.
Notation "0" := r0. Notation "1" := r1. Infix "+" := radd. Infix "*" := rmul. Notation "- x" := (ropp x).
Notation rprod := (rprod R r1 rmul). Notation sgn := (sgn R r1 ropp). Notation mel := (mel R r0 r1 ropp).
Lemma rprod_ext : forall n b f g, (forall k, (b <= k < b + n)%nat -> f k = g k) -> rprod n b f = rprod n b g.
Proof. induction n as [|n IH]; intros b f g H; cbn; auto. rewrite (H b), (IH (S b) f g); auto; try lia. intros; apply H; lia. Qed.
Lemma rprod_take : forall n b f i, (b <= i < b + n)%nat -> rprod n b f = f i * rprod n b (fun k => if (k =? i)%nat then 1 else f k).
Proof.
  induction n as [|n IH]; intros b f i H; [lia|]. cbn [MpoSpec.rprod]. destruct (Nat.eqb_spec b i) as [->|NE].
  - rewrite (rprod_ext n (S i) (fun k => if (k =? i)%nat then 1 else f k) f); [ring|]. intros k Hk. destruct (Nat.eqb_spec k i); auto; lia.
  - rewrite (IH (S b) f i) by lia. ring.
Qed.
Lemma rprod_cond : forall n b (c : nat -> bool) f, rprod n b (fun k => if c k then f k else 0) = if forallb c (seq b n) then rprod n b f else 0.
Proof. induction n as [|n IH]; intros b c f; cbn [MpoSpec.rprod seq forallb]; auto. rewrite IH. destruct (c b), (forallb c (seq (S b) n)); cbn [andb]; ring. Qed.
Lemma sgn_xor a b : sgn (xorb a b) = sgn a * sgn b.
Proof. destruct a, b; unfold FermionSpec.sgn; cbn; ring. Qed.
Lemma rprod_sgn : forall n b p, rprod n b (fun k => sgn (p k)) = sgn (xorl n b p).
Proof. induction n as [|n IH]; intros b p; cbn [MpoSpec.rprod xorl]; auto. rewrite IH, sgn_xor. auto. Qed.
(** a product with two special factors, a sign on the sites between them and deltas *)
Lemma string_prod N i j s s' g (p : nat -> bool) : (i < j)%nat -> (j < N)%nat ->
  (forall k, k < N -> k <> i -> k <> j -> g k = if (s k =? s' k)%nat then sgn ((i <? k) && (k <? j) && p k) else 0) ->
  rprod N 0 g = if forallb (fun k => (k =? i) || (k =? j) || (s k =? s' k)) (seq 0 N) then g i * g j * sgn (mid N i j p) else 0.
Proof.
  intros HI HJ HG. rewrite (rprod_take N 0 g i) by lia. rewrite (rprod_take N 0 _ j) by lia. destruct (Nat.eqb_spec j i); [lia|].
  rewrite (rprod_ext N 0 _ (fun k => if (k =? i) || (k =? j) || (s k =? s' k) then sgn ((i <? k) && (k <? j) && p k) else 0)).
  - rewrite rprod_cond. destruct (forallb _ _); [|ring]. rewrite rprod_sgn. fold (mid N i j p). ring.
  - intros k Hk. destruct (Nat.eqb_spec k j) as [->|NJ]; [rewrite Nat.ltb_irrefl, andb_false_r, orb_true_r; auto|]. destruct (Nat.eqb_spec k i) as [->|NI]; [rewrite Nat.ltb_irrefl; auto|]. cbn [orb]. apply HG; auto; lia.
Qed.

(** ** Hopping *)
Variables (up dn : nat -> bool) (d : nat).
Hypothesis inj : forall x y, x < d -> y < d -> up x = up y -> dn x = dn y -> x = y.
Notation modes := (modes up dn).
Definition odd_occ (x : nat) : bool := xorb (up x) (dn x).
Definition occ (sp : bool) (x : nat) : bool := if sp then dn x else up x.
(** comparing the occupation after adding v at spin sp of x *)
Definition moved (sp v : bool) (x x' : nat) : bool := eqb (if sp then up x else v) (up x') && eqb (if sp then v else dn x) (dn x').
Definition all_but (N i j : nat) (s s' : nat -> nat) : bool := forallb (fun k => (k =? i) || (k =? j) || (s k =? s' k)) (seq 0 N).
Lemma compare_sites N i j sp s s' n1 vi vj : i < N -> j < N -> i <> j -> (forall k, k < N -> s k < d /\ s' k < d) ->
  n1 = fset (fset (modes s) (mode sp i) vi) (mode sp j) vj ->
  forallb (fun m => eqb (n1 m) (modes s' m)) (seq 0 (2 * N)) = all_but N i j s s' && moved sp vi (s i) (s' i) && moved sp vj (s j) (s' j).
Proof.
  intros HI HJ NE HS ->. rewrite forallb_sites. rewrite (forallb_but i j) by auto. f_equal; [f_equal|].
  - unfold all_but. apply forallb_ext_seq. intros k Hk. destruct (Nat.eqb_spec k i); auto. destruct (Nat.eqb_spec k j); auto. cbn [orb].
    rewrite !fset_diff by (unfold mode; destruct sp; lia). rewrite !modes_mode. destruct (HS k Hk) as [A B].
    destruct (Nat.eqb_spec (s k) (s' k)) as [->|N0]; [rewrite !eqb_reflx; auto|]. destruct (eqb (up (s k)) (up (s' k)) && eqb (dn (s k)) (dn (s' k))) eqn:X; auto.
    apply andb_true_iff in X. destruct X as [X1 X2]. apply eqb_prop in X1. apply eqb_prop in X2. elim N0. auto.
  - unfold moved. destruct sp; rewrite ?fset_same, ?fset_diff, ?modes_mode by (unfold mode; lia); rewrite ?fset_same, ?fset_diff, ?modes_mode by (unfold mode; lia); auto.
  - unfold moved. destruct sp; rewrite ?fset_same, ?fset_diff, ?modes_mode by (unfold mode; lia); rewrite ?fset_same, ?fset_diff, ?modes_mode by (unfold mode; lia); auto.
Qed.
(** c^dag_i c_j and c^dag_j c_i for i < j *)
Lemma hop_to_left N i j sp s s' : i < j -> j < N -> (forall k, k < N -> s k < d /\ s' k < d) ->
  mel N (modes s') (smul (cre (mode sp i)) (ann (mode sp j)) (modes s)) =
  if all_but N i j s s' then
    if occ sp (s j) && negb (occ sp (s i)) && moved sp true (s i) (s' i) && moved sp false (s j) (s' j)
    then sgn (xorb (xorb (sp && up (s i)) (odd_occ (s i))) (xorb (mid N i j (fun k => odd_occ (s k))) (sp && up (s j)))) else 0
  else 0.
Proof.
  intros HI HJ HS. unfold smul, ann, cre. unfold cfg. rewrite !modes_mode. fold (occ sp (s j)). destruct (occ sp (s j)) eqn:EJ; [|cbn; destruct (all_but N i j s s'); auto].
  rewrite fset_diff by (unfold mode; destruct sp; lia). rewrite modes_mode. fold (occ sp (s i)). destruct (occ sp (s i)) eqn:EI; [cbn; destruct (all_but N i j s s'); auto|]. cbn [negb andb].
  unfold FermionSpec.mel. rewrite (forallb_ext_seq _ (fun m => eqb (fset (fset (modes s) (mode sp i) true) (mode sp j) false m) (modes s' m))) by (intros; rewrite swap_fset; auto; unfold mode; destruct sp; lia).
  rewrite (compare_sites N i j sp s s' _ true false) by (auto; lia). destruct (all_but N i j s s'); auto. cbn [andb]. destruct (moved sp true (s i) (s' i) && moved sp false (s j) (s' j)); auto. f_equal.
  rewrite par_fset. replace (mode sp j <? mode sp i) with false by (symmetry; apply Nat.ltb_ge; unfold mode; destruct sp; lia). rewrite !par_mode.
  rewrite !(xorl_ext _ 0 (fun i => xorb (modes s (mode false i)) (modes s (mode true i))) (fun k => odd_occ (s k))) by (intros; rewrite !modes_mode; auto).
  rewrite (mid_par N i j) by auto. rewrite !modes_mode. destruct (xorl i 0 _), (odd_occ (s i)), (mid N i j _), sp, (up (s i)), (up (s j)); auto.
Qed.
Lemma hop_to_right N i j sp s s' : i < j -> j < N -> (forall k, k < N -> s k < d /\ s' k < d) ->
  mel N (modes s') (smul (cre (mode sp j)) (ann (mode sp i)) (modes s)) =
  if all_but N i j s s' then
    if occ sp (s i) && negb (occ sp (s j)) && moved sp false (s i) (s' i) && moved sp true (s j) (s' j)
    then sgn (negb (xorb (xorb (sp && up (s i)) (odd_occ (s i))) (xorb (mid N i j (fun k => odd_occ (s k))) (sp && up (s j))))) else 0
  else 0.
Proof.
  intros HI HJ HS. unfold smul, ann, cre. unfold cfg. rewrite !modes_mode. fold (occ sp (s i)). destruct (occ sp (s i)) eqn:EI; [|cbn; destruct (all_but N i j s s'); auto].
  rewrite fset_diff by (unfold mode; destruct sp; lia). rewrite modes_mode. fold (occ sp (s j)). destruct (occ sp (s j)) eqn:EJ; [cbn; destruct (all_but N i j s s'); auto|]. cbn [negb andb].
  unfold FermionSpec.mel. rewrite (compare_sites N i j sp s s' _ false true) by (auto; lia). destruct (all_but N i j s s'); auto. cbn [andb]. destruct (moved sp false (s i) (s' i) && moved sp true (s j) (s' j)); auto. f_equal.
  rewrite par_fset. replace (mode sp i <? mode sp j) with true by (symmetry; apply Nat.ltb_lt; unfold mode; destruct sp; lia). rewrite !par_mode.
  rewrite !(xorl_ext _ 0 (fun i => xorb (modes s (mode false i)) (modes s (mode true i))) (fun k => odd_occ (s k))) by (intros; rewrite !modes_mode; auto).
  rewrite (mid_par N i j) by auto. rewrite !modes_mode. fold (occ sp (s i)). rewrite EI. destruct (xorl i 0 _), (odd_occ (s i)), (mid N i j _), sp, (up (s i)), (up (s j)); auto.
Qed.
End Ring.
