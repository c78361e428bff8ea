(** Every history of sparse matrix operations refines the dense matrix. *)
From Coq Require Import List Arith Lia Bool Permutation.
From Verif Require Import Base SparMat SparMatFacts SparSpec.
Import ListNotations.

Section Hist.
Variables (E : Type) (nullE : E) (eqE : E -> E -> bool).
Notation wf := (wf nullE eqE).
Notation look := (@look E).
Notation oget := (oget nullE).
Notation dense := (dense E).

Definition rel (m : mat E) (d : dense) : Prop :=
  wf m /\ rows m = dr _ d /\ cols m = dc _ d /\ forall r c, r < dr _ d -> c < dc _ d -> oget (look m r c) = df _ d r c.

Lemma perm_is : forall n p, Permutation p (seq 0 n) -> is_perm n p.
Proof.
  intros n p H. split; [rewrite (Permutation_length H); apply seq_length|]. split.
  - eapply Permutation_NoDup; [apply Permutation_sym; exact H|apply seq_NoDup].
  - intros x Hx. apply (Permutation_in _ H) in Hx. apply in_seq in Hx. lia.
Qed.
Lemma past_skip : forall k x, past k x = skip k x.
Proof. reflexivity. Qed.
Lemma exch_swp : forall a b x, exch a b x = swp a b x.
Proof. reflexivity. Qed.
Lemma rel_empty : rel mat_empty (zeros E nullE 0 0).
Proof. split; [apply wf_empty|]. split; auto. split; auto. simpl. intros. lia. Qed.

Lemma exec1_rel : forall dbg o m d, rel m d -> allowed E d o -> exists m', exec1 E nullE eqE dbg o m = Ok m' /\ rel m' (effect E nullE eqE d o).
Proof.
  intros dbg o m d [W [Hr [Hc HL]]] A. destruct o; simpl in A; unfold exec1, effect.
  - destruct A as [A1 A2]. destruct (set_elem_spec E nullE eqE m r c e W) as [m' [S1 [S2 [S3 [S4 S5]]]]]; try lia.
    exists m'. split; auto. split; auto. destruct (eqE e nullE) eqn:En; simpl.
    + split; [lia|]. split; [lia|]. intros r' c' H1 H2. rewrite S5 by lia. simpl. apply HL; auto.
    + split; [lia|]. split; [lia|]. intros r' c' H1 H2. rewrite S5 by lia. simpl.
      rewrite (Nat.eqb_sym r' r), (Nat.eqb_sym c' c). destruct ((r =? r') && (c =? c')); auto.
  - destruct (Nat.eqb_spec (dr E d) 1) as [H1|H1].
    + exists mat_empty. split; [|apply rel_empty]. unfold remove_row. rewrite (proj2 (Nat.ltb_lt _ _)) by lia.
      rewrite (proj2 (Nat.eqb_eq (rows m) 1)) by lia. destruct dbg; reflexivity.
    + destruct (remove_row_spec E nullE eqE dbg m r W) as [m' [S1 [S2 [S3 [S4 S5]]]]]; try lia.
      exists m'. split; auto. split; auto. simpl. split; [lia|]. split; [lia|]. intros r' c' H2 H3. rewrite S5 by lia.
    apply HL; auto; unfold past; destruct (_ <? _); lia.
  - destruct A as [A1 A2]. destruct (Nat.eqb_spec (dc E d) 1) as [H1|H1].
    + exists mat_empty. split; [|apply rel_empty]. unfold remove_col. rewrite (proj2 (Nat.ltb_lt _ _)) by lia.
      rewrite (proj2 (Nat.eqb_eq (cols m) 1)) by lia. destruct dbg; reflexivity.
    + destruct (remove_col_spec E nullE eqE dbg m c W) as [m' [S1 [S2 [S3 [S4 S5]]]]]; try lia.
      exists m'. split; auto. split; auto. simpl. split; [lia|]. split; [lia|]. intros r' c' H2 H3. rewrite S5 by lia.
    apply HL; auto; unfold past; destruct (_ <? _); lia.
  - destruct A as [A1 A2]. destruct (swap_rows_spec E nullE eqE dbg m a b W) as [m' [S1 [S2 [S3 [S4 S5]]]]]; try lia.
    exists m'. split; auto. split; auto. simpl. split; [lia|]. split; [lia|]. intros r' c' H2 H3. rewrite S5 by lia.
    apply HL; auto; unfold exch; repeat destruct (_ =? _); lia.
  - destruct A as [A1 A2]. destruct (swap_cols_spec E nullE eqE dbg m a b W) as [m' [S1 [S2 [S3 [S4 S5]]]]]; try lia.
    exists m'. split; auto. split; auto. simpl. split; [lia|]. split; [lia|]. intros r' c' H2 H3. rewrite S5 by lia.
    apply HL; auto; unfold exch; repeat destruct (_ =? _); lia.
  - apply perm_is in A. rewrite <- Hr in A. destruct (transpose_rows_spec E nullE eqE dbg m p W A) as [m' [S1 [S2 [S3 [S4 S5]]]]].
    exists m'. split; auto. split; auto. simpl. split; [lia|]. split; [lia|]. intros r' c' H2 H3. rewrite S5 by lia. apply HL; auto.
    destruct (is_perm_nth _ _ r' A ltac:(lia)) as [t [T1 T2]]. rewrite (nth_error_nth _ _ 0 T1). lia.
  - apply perm_is in A. rewrite <- Hc in A. destruct (transpose_cols_spec E nullE eqE dbg m p W A) as [m' [S1 [S2 [S3 [S4 S5]]]]].
    exists m'. split; auto. split; auto. simpl. split; [lia|]. split; [lia|]. intros r' c' H2 H3. rewrite S5 by lia. apply HL; auto.
    destruct (is_perm_nth _ _ c' A ltac:(lia)) as [t [T1 T2]]. rewrite (nth_error_nth _ _ 0 T1). lia.
Qed.

Lemma exec_rel : forall dbg h m d, rel m d -> allowed_all E nullE eqE d h ->
  exists m', exec E nullE eqE dbg h m = Ok m' /\ rel m' (effects E nullE eqE d h).
Proof.
  intros dbg. induction h as [|o h IH]; intros m d HR HA; simpl in HA.
  - exists m. auto.
  - destruct HA as [A1 A2]. destruct (exec1_rel dbg o m d HR A1) as [m1 [E1 R1]]. destruct (IH m1 _ R1 A2) as [m' [E2 R2]].
    exists m'. split; auto. unfold exec. simpl. rewrite E1. exact E2.
Qed.

Lemma rel_shows : forall dbg m d, rel m d -> shows E nullE eqE dbg m d.
Proof.
  intros dbg m d [W [Hr [Hc HL]]]. split; auto. split; auto. split; [|split].
  - intros r c H1 H2. split.
    + rewrite (get_look E nullE eqE) by (auto; lia). f_equal. auto.
    + rewrite (is_null_look E nullE eqE) by (auto; lia). eexists. split; [reflexivity|].
      rewrite <- HL by auto. destruct (look m r c) as [e|] eqn:El; split; intros X; try discriminate; auto.
      simpl. eapply look_nn; eauto.
  - intros r H1. rewrite (get_row_spec E nullE eqE) by (auto; lia). f_equal. rewrite Hc. apply map_ext_in. intros y Hy. apply in_seq in Hy.
    apply HL; auto. lia.
  - intros c H1. rewrite (get_col_spec E nullE eqE) by (auto; lia). f_equal. rewrite Hr. apply map_ext_in. intros y Hy. apply in_seq in Hy.
    apply HL; auto. lia.
Qed.

Lemma new_rel : forall r c, rel (mat_new r c) (zeros E nullE r c).
Proof. intros. split; [apply wf_new|]. split; auto. split; auto. intros. rewrite look_new. reflexivity. Qed.

Theorem history_refines : forall dbg r c h, allowed_all E nullE eqE (zeros E nullE r c) h ->
  exists m, exec E nullE eqE dbg h (mat_new r c) = Ok m /\ shows E nullE eqE dbg m (effects E nullE eqE (zeros E nullE r c) h).
Proof.
  intros dbg r c h HA. destruct (exec_rel dbg h _ _ (new_rel r c) HA) as [m [E1 R1]]. exists m. split; auto. apply rel_shows. auto.
Qed.
End Hist.
