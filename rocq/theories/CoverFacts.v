From Coq Require Import List Arith Lia Bool Sorted Permutation.
From Verif Require Import Base Cover.
Import ListNotations.

Definition count (x : nat) (l : list nat) : nat := count_occ Nat.eq_dec l x.
Lemma count_cons : forall x y l, count x (y :: l) = (if y =? x then 1 else 0) + count x l.
Proof. intros. unfold count. cbn [count_occ]. destruct (Nat.eq_dec y x); destruct (Nat.eqb_spec y x); lia. Qed.
Lemma count_not : forall x l, ~ In x l -> count x l = 0.
Proof. intros x l H. apply count_occ_not_In. exact H. Qed.
Lemma sorted_cons : forall x l, Sorted Nat.le (x :: l) -> forall y, In y l -> x <= y.
Proof. intros x l H y Hy. apply Sorted_StronglySorted in H; [|intros a b c; lia]. inversion H as [|a b S1 S2]. subst. rewrite Forall_forall in S2. apply S2. exact Hy. Qed.
Lemma sorted_tl : forall x l, Sorted Nat.le (x :: l) -> Sorted Nat.le l.
Proof. intros x l H. inversion H. auto. Qed.

Lemma scan_ok : forall a b r, Sorted Nat.le a -> Sorted Nat.le b -> scan a b = Ok r -> (r = true <-> forall x, count x b <= count x a).
Proof.
  induction a as [|x a IH]; intros [|y b] r Sa Sb H; cbn [scan] in H.
  - injection H as <-. split; auto.
  - discriminate.
  - injection H as <-. split; auto. intros _ z. unfold count at 1. cbn. lia.
  - destruct (Nat.ltb_spec x y) as [L|L].
    + rewrite (IH (y :: b) r (sorted_tl _ _ Sa) Sb H). split; intros C z; specialize (C z); rewrite !count_cons in *; destruct (Nat.eqb_spec x z) as [->|]; try lia.
      assert (Z1 : count z b = 0). { apply count_not. intros I. pose proof (sorted_cons _ _ Sb _ I). lia. }
      destruct (Nat.eqb_spec y z); lia.
    + destruct (Nat.eqb_spec x y) as [->|NE].
      * rewrite (IH b r (sorted_tl _ _ Sa) (sorted_tl _ _ Sb) H). split; intros C z; specialize (C z); rewrite !count_cons in *; lia.
      * injection H as <-. split; [discriminate|]. intros C. specialize (C y). rewrite !count_cons, Nat.eqb_refl in C.
        destruct (Nat.eqb_spec x y); [lia|]. assert (count y a = 0); [|lia]. apply count_not. intros I. pose proof (sorted_cons _ _ Sa _ I). lia.
Qed.
(** the iterator only runs past the end when the second list has a repeated value not covered by the first *)
Lemma scan_defined : forall a b, Sorted Nat.le a -> Sorted Nat.le b -> NoDup b -> (forall y, In y b -> exists x, In x a /\ y <= x) -> exists r, scan a b = Ok r.
Proof.
  induction a as [|x a IH]; intros [|y b] Sa Sb ND C; cbn [scan]; try (eexists; reflexivity).
  - exfalso. destruct (C y) as [x [I _]]; [left; auto|destruct I].
  - destruct (Nat.ltb_spec x y) as [L|L].
    + apply IH; auto; [apply (sorted_tl _ _ Sa)|]. intros z Hz. destruct (C z Hz) as [u [[<-|I] U]].
      * exfalso. destruct Hz as [<-|I]; [lia|]. pose proof (sorted_cons _ _ Sb _ I). lia.
      * exists u. auto.
    + destruct (Nat.eqb_spec x y) as [->|NE]; [|eexists; reflexivity].
      inversion ND as [|? ? N1 N2]. subst. apply IH; auto; [apply (sorted_tl _ _ Sa)|apply (sorted_tl _ _ Sb)|].
      intros z Hz. destruct (C z (or_intror Hz)) as [u [[<-|I] U]]; [|exists u; auto].
      exfalso. pose proof (sorted_cons _ _ Sb _ Hz). assert (z = y) by lia. subst. contradiction.
Qed.
Lemma back_max : forall l, Sorted Nat.le l -> l <> [] -> exists m, back l = Ok m /\ In m l /\ forall y, In y l -> y <= m.
Proof.
  intros l SL NE. destruct (exists_last NE) as [l' [m ->]]. exists m. unfold back. rewrite rev_app_distr. cbn. split; auto. split; [apply in_or_app; right; left; auto|].
  clear NE. induction l' as [|x l' IH]; intros y Hy; [destruct Hy as [<-|[]]; lia|]. cbn [app] in *. destruct Hy as [<-|Hy]; [apply (sorted_cons _ _ SL); apply in_or_app; right; left; auto|].
  apply IH; auto. apply (sorted_tl _ _ SL).
Qed.

Section Facts.
Variable Q : Type.
Variable hash : Q -> nat.
Variable sort : list nat -> list nat.
Hypothesis sort_sorted : forall l, Sorted Nat.le (sort l).
Hypothesis sort_perm : forall l, Permutation l (sort l).
Notation is_covered := (is_covered Q hash sort).
Lemma count_sort : forall x l, count x (sort l) = count x l.
Proof. intros. unfold count. symmetry. apply Permutation_count_occ. apply sort_perm. Qed.
Lemma sort_in : forall x l, In x (sort l) <-> In x l.
Proof. intros x l. split; apply Permutation_in; [apply Permutation_sym|]; apply sort_perm. Qed.
Lemma count_le_length : forall l2 l1 : list nat, (forall x, count x l2 <= count x l1) -> length l2 <= length l1.
Proof.
  induction l2 as [|y l2 IH]; intros l1 H; [cbn; lia|]. assert (I : In y l1). { apply (count_occ_In Nat.eq_dec). specialize (H y). rewrite count_cons, Nat.eqb_refl in H. unfold count in H. lia. }
  destruct (in_split _ _ I) as [u [v ->]]. rewrite app_length. cbn [length]. specialize (IH (u ++ v)). rewrite app_length in IH.
  assert (length l2 <= length u + length v); [|lia]. apply IH. intros x. specialize (H x). unfold count in *. rewrite count_occ_app in *. cbn [count_occ] in H. destruct (Nat.eq_dec y x); lia.
Qed.
Lemma covered_hashes : forall s1 s2 b, is_covered s1 s2 = Ok b -> (b = true <-> forall h, count h (map hash s2) <= count h (map hash s1)).
Proof.
  intros s1 s2 b H. unfold Cover.is_covered in H. destruct (Nat.ltb_spec (length s1) (length s2)) as [L|L].
  - injection H as <-. split; [discriminate|]. intros C. apply count_le_length in C. rewrite !map_length in C. lia.
  - inv_bind H. inv_bind H. rename a into b1, a0 into b2.
    assert (N1 : sort (map hash s1) <> []) by (intros X; rewrite X in Hb; discriminate).
    assert (N2 : sort (map hash s2) <> []) by (intros X; rewrite X in Hb0; discriminate).
    destruct (back_max _ (sort_sorted _) N1) as [m1 [A1 [A2 A3]]]. destruct (back_max _ (sort_sorted _) N2) as [m2 [B1 [B2 B3]]].
    rewrite A1 in Hb. rewrite B1 in Hb0. injection Hb as <-. injection Hb0 as <-.
    destruct (Nat.ltb_spec m1 m2) as [M|M].
    + injection H as <-. split; [discriminate|]. intros C. exfalso. specialize (C m2).
      assert (In m2 (map hash s2)) by (apply sort_in; auto). assert (0 < count m2 (map hash s2)) by (apply (count_occ_In Nat.eq_dec); auto).
      assert (I : In m2 (map hash s1)) by (apply (count_occ_In Nat.eq_dec); unfold count in *; lia). apply sort_in in I. specialize (A3 _ I). lia.
    + rewrite (scan_ok _ _ _ (sort_sorted _) (sort_sorted _) H). split; intros C h; specialize (C h); rewrite !count_sort in *; auto.
Qed.
Lemma covered_defined : forall s1 s2, s1 <> [] -> s2 <> [] -> NoDup (map hash s2) -> exists b, is_covered s1 s2 = Ok b.
Proof.
  intros s1 s2 N1 N2 ND. unfold Cover.is_covered. destruct (length s1 <? length s2); [eexists; reflexivity|].
  assert (X : forall s, s <> [] -> sort (map hash s) <> []).
  { intros s NS E. pose proof (sort_perm (map hash s)) as P. rewrite E in P. apply Permutation_sym, Permutation_nil in P. destruct s; [congruence|discriminate]. }
  destruct (back_max _ (sort_sorted (map hash s1)) (X _ N1)) as [m1 [A1 [A2 A3]]]. destruct (back_max _ (sort_sorted (map hash s2)) (X _ N2)) as [m2 [B1 [B2 B3]]].
  rewrite A1, B1. cbn [bind]. destruct (Nat.ltb_spec m1 m2); [eexists; reflexivity|].
  apply scan_defined; auto; [eapply Permutation_NoDup; [apply sort_perm|auto]|]. intros y Hy. exists m1. split; auto. specialize (B3 _ Hy). lia.
Qed.
Variable Qeq : forall x y : Q, {x = y} + {x <> y}.
(** with a hash that separates the sectors, counting hashes is counting sectors *)
Lemma count_hash : forall l x, (forall y, In y l -> hash y = hash x -> y = x) -> count (hash x) (map hash l) = count_occ Qeq l x.
Proof.
  induction l as [|y l IH]; intros x H; [reflexivity|]. cbn [map]. rewrite count_cons. cbn [count_occ].
  rewrite IH by (intros z Hz; apply H; right; auto). destruct (Qeq y x) as [->|NE]; [rewrite Nat.eqb_refl; lia|].
  destruct (Nat.eqb_spec (hash y) (hash x)) as [E|]; [exfalso; apply NE; apply H; [left; auto|auto]|lia].
Qed.
Lemma covered_iff : forall s1 s2 b, (forall x y, In x (s1 ++ s2) -> In y (s1 ++ s2) -> hash x = hash y -> x = y) -> is_covered s1 s2 = Ok b ->
  (b = true <-> forall q, count_occ Qeq s2 q <= count_occ Qeq s1 q).
Proof.
  intros s1 s2 b HI H. rewrite (covered_hashes s1 s2 b H). split; intros C.
  - intros q. destruct (in_dec Qeq q s2) as [I|I]; [|rewrite (proj1 (count_occ_not_In Qeq s2 q) I); lia].
    specialize (C (hash q)). rewrite !count_hash in C; auto; intros y Hy E; apply HI; auto; apply in_or_app; auto.
  - intros h. destruct (in_dec Nat.eq_dec h (map hash s2)) as [I|I]; [|rewrite (count_not h); auto; lia].
    apply in_map_iff in I. destruct I as [q [<- Iq]]. rewrite !count_hash; auto; intros y Hy E; apply HI; auto; apply in_or_app; auto.
Qed.
End Facts.

Fixpoint insert (x : nat) (l : list nat) : list nat := match l with [] => [x] | y :: r => if x <=? y then x :: l else y :: insert x r end.
Definition isort (l : list nat) : list nat := fold_right insert [] l.
Lemma insert_sorted : forall x l, Sorted Nat.le l -> Sorted Nat.le (insert x l).
Proof.
  intros x l. induction l as [|y l IH]; intros H; cbn [insert]; [repeat constructor|]. destruct (Nat.leb_spec x y); [constructor; auto|].
  inversion H as [|? ? S1 S2]. subst. constructor; [apply IH; auto|]. destruct l as [|z l]; cbn [insert]; [constructor; lia|]. destruct (x <=? z); constructor; [lia|]. inversion S2. auto.
Qed.
Lemma isort_sorted : forall l, Sorted Nat.le (isort l).
Proof. induction l; cbn; [constructor|apply insert_sorted; auto]. Qed.
Lemma insert_perm : forall x l, Permutation (x :: l) (insert x l).
Proof. intros x l. induction l as [|y l IH]; cbn [insert]; auto. destruct (x <=? y); auto. eapply perm_trans; [apply perm_swap|]. constructor. auto. Qed.
Lemma isort_perm : forall l, Permutation l (isort l).
Proof. induction l as [|x l IH]; cbn; auto. eapply perm_trans; [|apply insert_perm]. constructor. auto. Qed.
