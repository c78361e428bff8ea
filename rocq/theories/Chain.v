(** Chains of operator matrices and the compression sweeps on them. *)
From Coq Require Import List Arith Lia Bool Permutation Ring.
From Verif Require Import Base SparMat SparMatFacts CoefOp CoefOpAlg CoefOpFacts Compress Fsm Numeric.
Import ListNotations.

Definition good (m : opmat) : Prop := wfo m /\ msrt m /\ 1 <= rows m /\ 1 <= cols m.

(** Adjacent bond dimensions match; the chain has [a] rows and [b] columns. *)
Fixpoint chain (a : nat) (ms : list opmat) (b : nat) : Prop :=
  match ms with
  | [] => a = b
  | m :: t => rows m = a /\ chain (cols m) t b
  end.

Lemma chain_app : forall l a l' b, chain a (l ++ l') b <-> exists c, chain a l c /\ chain c l' b.
Proof.
  induction l as [|m t IH]; intros a l' b; simpl.
  - split; [intros; exists a; auto|intros [c [-> H]]; auto].
  - split.
    + intros [H1 H2]. apply IH in H2. destruct H2 as [c [H2 H3]]. exists c. auto.
    + intros [c [[H1 H2] H3]]. split; auto. apply IH. eauto.
Qed.

(** Result of a successful (assertion-respecting) column / row step. *)
Definition crel (T F T' F' : opmat) : Prop :=
  (cols T = 1 /\ T' = T /\ F' = F) \/
  exists p cy tr kept, ccomp (rows T) (cols T) (sm T) (cols T') (sm T') p cy tr kept /\
    ok1 (cols T) (cols F) (sm F) p cy /\ ok2 (cols T) (cols T') (cols F) (sm F) p cy tr /\
    rows T' = rows T /\ rows F' = cols T' /\ cols F' = cols F /\
    (forall j z, j < cols T' -> z < cols F -> sm F' j z = Fnew (cols T) (sm F) p cy tr j z).
Definition rrel (T F T' F' : opmat) : Prop :=
  (rows T = 1 /\ T' = T /\ F' = F) \/
  exists p cy tr kept, ccomp (cols T) (rows T) (fun x y => sm T y x) (rows T') (fun x y => sm T' y x) p cy tr kept /\
    ok1 (rows T) (rows F) (fun y z => sm F z y) p cy /\ ok2 (rows T) (rows T') (rows F) (fun y z => sm F z y) p cy tr /\
    cols T' = cols T /\ cols F' = rows T' /\ rows F' = rows F /\
    (forall j z, j < rows T' -> z < rows F -> sm F' z j = Fnew (rows T) (fun y z => sm F z y) p cy tr j z).

Lemma ccomp_ext : forall R n T k T1 T2 p cy tr kept, ccomp R n T k T1 p cy tr kept ->
  (forall x j, x < R -> j < k -> T2 x j = T1 x j) -> ccomp R n T k T2 p cy tr kept.
Proof.
  intros R n T k T1 T2 p cy tr kept C H. destruct C. constructor; auto.
  - intros x j Hx Hj. rewrite H by auto. auto.
  - intros o x Ho Hx. rewrite (psum_ext _ _ (fun j => pm (tr j o) (T1 x j))); auto.
    intros j Hj. rewrite H by auto. reflexivity.
  - intros o j Ho Hj Hn. destruct (cc_ov o j Ho Hj Hn) as [A B]. split.
    + destruct A as [A|[x [Hx A]]]; auto. right. exists x. rewrite H by auto. auto.
    + intros x Hx Hb. rewrite H in * by auto. auto.
Qed.

(** The matrix spec specialised: given the assertions hold, the step succeeds. *)
Lemma col_step_ok : forall dbg T F, good T -> good F -> cols T = rows F ->
  (cols T = 1 /\ col_compress dbg T F = Ok (T, F)) \/
  exists k T' p cy tr kept, 2 <= cols T /\ ccomp (rows T) (cols T) (sm T) k T' p cy tr kept /\
   (ok1 (cols T) (cols F) (sm F) p cy -> ok2 (cols T) k (cols F) (sm F) p cy tr ->
      exists Tm Fm, col_compress dbg T F = Ok (Tm, Fm) /\ good Tm /\ good Fm /\ crel T F Tm Fm /\
        rows Tm = rows T /\ cols Tm = k /\ rows Fm = k /\ cols Fm = cols F /\
        (forall x j, x < rows T -> j < k -> sm Tm x j = T' x j) /\
        (forall j z, j < k -> z < cols F -> sm Fm j z = Fnew (cols T) (sm F) p cy tr j z)) /\
   (forall r, dbg = true -> col_compress dbg T F = Ok r ->
      ok1 (cols T) (cols F) (sm F) p cy /\ ok2 (cols T) k (cols F) (sm F) p cy tr).
Proof.
  intros dbg T F [WT [ST [RT CT]]] [WF [SF [RF CF]]] Hd.
  destruct (Nat.eq_dec (cols T) 1) as [E|E].
  - left. split; auto. unfold col_compress. rewrite (proj2 (Nat.eqb_eq _ _) Hd), assert_true. cbn [bind].
    rewrite E. reflexivity.
  - right. destruct (col_compress_spec dbg T F WT WF ST SF Hd RT ltac:(lia)) as [k [T' [p [cy [tr [kept [H1 [H2 H3]]]]]]]].
    exists k, T', p, cy, tr, kept. split; [lia|]. split; auto. split; auto.
    intros O1 O2. destruct (H2 O1 O2) as [Tm [Fm [G0 [G1 [G2 [G3 [G4 [G5 [G6 [G7 [G8 [G9 G10]]]]]]]]]]]].
    pose proof (cc_k _ _ _ _ _ _ _ _ _ H1) as Hk.
    exists Tm, Fm. split; auto. split; [split; auto; split; auto; lia|]. split; [split; auto; split; auto; lia|].
    split; [|repeat split; auto].
    right. exists p, cy, tr, kept. rewrite G6. split; [|repeat split; auto].
    eapply ccomp_ext; [exact H1|]. auto.
Qed.

Lemma row_step_ok : forall dbg T F, good T -> good F -> rows T = cols F ->
  (rows T = 1 /\ row_compress dbg T F = Ok (T, F)) \/
  exists k T' p cy tr kept, 2 <= rows T /\ ccomp (cols T) (rows T) (fun x y => sm T y x) k T' p cy tr kept /\
   (ok1 (rows T) (rows F) (fun y z => sm F z y) p cy -> ok2 (rows T) k (rows F) (fun y z => sm F z y) p cy tr ->
      exists Tm Fm, row_compress dbg T F = Ok (Tm, Fm) /\ good Tm /\ good Fm /\ rrel T F Tm Fm /\
        cols Tm = cols T /\ rows Tm = k /\ cols Fm = k /\ rows Fm = rows F /\
        (forall x j, x < cols T -> j < k -> sm Tm j x = T' x j) /\
        (forall j z, j < k -> z < rows F -> sm Fm z j = Fnew (rows T) (fun y z => sm F z y) p cy tr j z)) /\
   (forall r, dbg = true -> row_compress dbg T F = Ok r ->
      ok1 (rows T) (rows F) (fun y z => sm F z y) p cy /\ ok2 (rows T) k (rows F) (fun y z => sm F z y) p cy tr).
Proof.
  intros dbg T F [WT [ST [RT CT]]] [WF [SF [RF CF]]] Hd.
  destruct (Nat.eq_dec (rows T) 1) as [E|E].
  - left. split; auto. unfold row_compress. rewrite (proj2 (Nat.eqb_eq _ _) Hd), assert_true. cbn [bind].
    rewrite E. reflexivity.
  - right. destruct (row_compress_spec dbg T F WT WF ST SF Hd CT ltac:(lia)) as [k [T' [p [cy [tr [kept [H1 [H2 H3]]]]]]]].
    exists k, T', p, cy, tr, kept. split; [lia|]. split; auto. split; auto.
    intros O1 O2. destruct (H2 O1 O2) as [Tm [Fm [G0 [G1 [G2 [G3 [G4 [G5 [G6 [G7 [G8 [G9 G10]]]]]]]]]]]].
    pose proof (cc_k _ _ _ _ _ _ _ _ _ H1) as Hk.
    exists Tm, Fm. split; auto. split; [split; auto; split; auto; lia|]. split; [split; auto; split; auto; lia|].
    split; [|repeat split; auto].
    right. exists p, cy, tr, kept. rewrite G6. split; [|repeat split; auto].
    eapply ccomp_ext; [exact H1|]. auto.
Qed.

Lemma col_step_true : forall T F T' F', good T -> good F -> cols T = rows F ->
  col_compress true T F = Ok (T', F') -> crel T F T' F' /\ good T' /\ good F'.
Proof.
  intros T F T' F' GT GF Hd H. destruct (col_step_ok true T F GT GF Hd) as [[E1 E2]|[k [Tf [p [cy [tr [kept [Hn [H1 [H2 H3]]]]]]]]]].
  - rewrite E2 in H. injection H as <- <-. split; auto. left. auto.
  - destruct (H3 _ eq_refl H) as [O1 O2]. destruct (H2 O1 O2) as [Tm [Fm [G0 [G1 [G2 [G3 _]]]]]].
    rewrite G0 in H. injection H as <- <-. auto.
Qed.
Lemma row_step_true : forall T F T' F', good T -> good F -> rows T = cols F ->
  row_compress true T F = Ok (T', F') -> rrel T F T' F' /\ good T' /\ good F'.
Proof.
  intros T F T' F' GT GF Hd H. destruct (row_step_ok true T F GT GF Hd) as [[E1 E2]|[k [Tf [p [cy [tr [kept [Hn [H1 [H2 H3]]]]]]]]]].
  - rewrite E2 in H. injection H as <- <-. split; auto. left. auto.
  - destruct (H3 _ eq_refl H) as [O1 O2]. destruct (H2 O1 O2) as [Tm [Fm [G0 [G1 [G2 [G3 _]]]]]].
    rewrite G0 in H. injection H as <- <-. auto.
Qed.

Lemma crel_dims : forall T F T' F', cols T = rows F -> crel T F T' F' ->
  rows T' = rows T /\ cols T' = rows F' /\ cols F' = cols F /\ cols T' <= cols T.
Proof.
  intros T F T' F' Hd [[H1 [-> ->]]|[p [cy [tr [kept [C [_ [_ [H1 [H2 [H3 _]]]]]]]]]]]; auto.
  pose proof (cc_k _ _ _ _ _ _ _ _ _ C). lia.
Qed.
Lemma rrel_dims : forall T F T' F', rows T = cols F -> rrel T F T' F' ->
  cols T' = cols T /\ rows T' = cols F' /\ rows F' = rows F /\ rows T' <= rows T.
Proof.
  intros T F T' F' Hd [[H1 [-> ->]]|[p [cy [tr [kept [C [_ [_ [H1 [H2 [H3 _]]]]]]]]]]]; auto.
  pose proof (cc_k _ _ _ _ _ _ _ _ _ C). lia.
Qed.

(** Replacing two neighbours of a list. *)
Lemma vset_two : forall A (l r : list A) a b a' b',
  (let! ms1 := vset (l ++ a :: b :: r) (length l) a' in vset ms1 (length l + 1) b') = Ok (l ++ a' :: b' :: r).
Proof.
  intros. assert (H1 : vset (l ++ a :: b :: r) (length l) a' = Ok (l ++ a' :: b :: r)).
  { rewrite vset_ok by (rewrite app_length; simpl; lia). f_equal. induction l; simpl; congruence. }
  rewrite H1. cbn [bind]. rewrite vset_ok by (rewrite app_length; simpl; lia). f_equal.
  clear H1. induction l; simpl; congruence.
Qed.
Lemma vset_two' : forall A (l r : list A) a b a' b',
  (let! ms1 := vset (l ++ b :: a :: r) (length l + 1) a' in vset ms1 (length l) b') = Ok (l ++ b' :: a' :: r).
Proof.
  intros. assert (H1 : vset (l ++ b :: a :: r) (length l + 1) a' = Ok (l ++ b :: a' :: r)).
  { rewrite vset_ok by (rewrite app_length; simpl; lia). f_equal. induction l; simpl; congruence. }
  rewrite H1. cbn [bind]. rewrite vset_ok by (rewrite app_length; simpl; lia). f_equal.
  clear H1. induction l; simpl; congruence.
Qed.
Lemma vget_mid : forall A (l r : list A) a, vget (l ++ a :: r) (length l) = Ok a.
Proof. intros. unfold vget. rewrite nth_error_app2, Nat.sub_diag by lia. reflexivity. Qed.
Lemma vget_mid1 : forall A (l r : list A) a b, vget (l ++ a :: b :: r) (length l + 1) = Ok b.
Proof.
  intros. unfold vget. rewrite nth_error_app2 by lia. replace (length l + 1 - length l) with 1 by lia. reflexivity.
Qed.

Lemma split_two : forall A (ms : list A) i, i + 1 < length ms ->
  exists l a b r, ms = l ++ a :: b :: r /\ length l = i.
Proof.
  intros A ms i H. destruct (nth_error ms i) as [a|] eqn:E; [|apply nth_error_None in E; lia].
  apply nth_error_split in E. destruct E as [l [r [-> Hl]]].
  destruct r as [|b r]; [rewrite app_length in H; simpl in H; lia|]. exists l, a, b, r. auto.
Qed.

Lemma compress_lr_eq : forall dbg l T F r T' F', col_compress dbg T F = Ok (T', F') ->
  compress_lr dbg (length l) (l ++ T :: F :: r) = Ok (l ++ T' :: F' :: r).
Proof.
  intros. unfold compress_lr. rewrite vget_mid, vget_mid1. cbn [bind]. rewrite H. cbn [bind]. apply vset_two.
Qed.
Lemma compress_lr_inv : forall dbg l T F r ms', compress_lr dbg (length l) (l ++ T :: F :: r) = Ok ms' ->
  exists T' F', col_compress dbg T F = Ok (T', F') /\ ms' = l ++ T' :: F' :: r.
Proof.
  intros dbg l T F r ms' H. unfold compress_lr in H. rewrite vget_mid, vget_mid1 in H. cbn [bind] in H.
  destruct (col_compress dbg T F) as [[T' F']| |]; try discriminate. cbn [bind] in H.
  rewrite vset_two in H. injection H as <-. eauto.
Qed.
Lemma compress_rl_eq : forall dbg n k l T F r T' F', n - 1 - k = length l + 1 -> row_compress dbg T F = Ok (T', F') ->
  compress_rl dbg n k (l ++ F :: T :: r) = Ok (l ++ F' :: T' :: r).
Proof.
  intros dbg n k l T F r T' F' Hk H. unfold compress_rl. rewrite Hk. replace (length l + 1 - 1) with (length l) by lia.
  rewrite vget_mid, vget_mid1. cbn [bind]. rewrite H. cbn [bind]. apply vset_two'.
Qed.
Lemma compress_rl_inv : forall dbg n k l T F r ms', n - 1 - k = length l + 1 ->
  compress_rl dbg n k (l ++ F :: T :: r) = Ok ms' ->
  exists T' F', row_compress dbg T F = Ok (T', F') /\ ms' = l ++ F' :: T' :: r.
Proof.
  intros dbg n k l T F r ms' Hk H. unfold compress_rl in H. rewrite Hk in H.
  replace (length l + 1 - 1) with (length l) in H by lia.
  rewrite vget_mid, vget_mid1 in H. cbn [bind] in H.
  destruct (row_compress dbg T F) as [[T' F']| |]; try discriminate. cbn [bind] in H.
  rewrite vset_two' in H. injection H as <-. eauto.
Qed.

Definition bond_le (ms' ms : list opmat) : Prop :=
  Forall2 (fun m' m => rows m' <= rows m /\ cols m' <= cols m) ms' ms.
Lemma bond_le_refl : forall ms, bond_le ms ms.
Proof. induction ms; constructor; auto. Qed.
Lemma bond_le_trans : forall a b c, bond_le a b -> bond_le b c -> bond_le a c.
Proof.
  intros a b c H. revert c. induction H; intros c H1; inversion H1; subst; constructor; auto; try lia.
  apply IHForall2. auto.
Qed.

Section NumChain.
Variable R : Type.
Variables (r0 r1 : R) (radd rmul rsub : R -> R -> R) (ropp : R -> R).
Variable Rth : ring_theory r0 r1 radd rmul rsub ropp (@eq R).
Add Ring Rring : Rth.
Variable cv : nat -> R.
Hypothesis cv_id : cv 0 = r1.
Variable ev : nat -> nat -> R.

Infix "*r" := rmul (at level 40).
Notation oval := (oval R r0 radd rmul cv).
Notation nsum := (nsum R r0 radd).

(** Product of the matrices of a chain whose first matrix sits on site [k]. *)
Fixpoint mprod (k : nat) (ms : list opmat) (x y : nat) : R :=
  match ms with
  | [] => if x =? y then r1 else r0
  | m :: t => nsum (cols m) (fun z => oval (ev k) (sm m x z) *r mprod (S k) t z y)
  end.

Lemma mprod_app_ext : forall l k a c r r' y, chain a l c ->
  (forall x, x < c -> mprod (k + length l) r x y = mprod (k + length l) r' x y) ->
  forall x, x < a -> mprod k (l ++ r) x y = mprod k (l ++ r') x y.
Proof.
  induction l as [|m t IH]; intros k a c r r' y Hc H x Hx; simpl in *.
  - subst c. rewrite Nat.add_0_r in H. auto.
  - destruct Hc as [H1 H2]. apply nsum_ext. intros z Hz. f_equal.
    apply (IH (S k) (cols m) c); auto. intros. replace (S k + length t) with (k + S (length t)) by lia. auto.
Qed.

Lemma mprod_two : forall k T F r x y,
  mprod k (T :: F :: r) x y =
  nsum (cols F) (fun w => nsum (cols T) (fun z => oval (ev k) (sm T x z) *r oval (ev (S k)) (sm F z w)) *r mprod (S (S k)) r w y).
Proof.
  intros. simpl.
  transitivity (nsum (cols T) (fun z => nsum (cols F) (fun w =>
    oval (ev k) (sm T x z) *r (oval (ev (S k)) (sm F z w) *r mprod (S (S k)) r w y)))).
  - apply nsum_ext. intros. apply (nsum_mul_l _ _ _ _ _ _ _ Rth).
  - rewrite (nsum_swap _ _ _ _ _ _ _ Rth). apply nsum_ext. intros w Hw.
    rewrite (nsum_mul_r _ _ _ _ _ _ _ Rth). apply nsum_ext. intros. ring.
Qed.

(** Two neighbours may be replaced by two others with the same product. *)
Lemma mprod_replace : forall l T F T' F' r a b y,
  chain a (l ++ T :: F :: r) b -> rows T' = rows T -> cols F' = cols F -> 
  (forall x z, x < rows T -> z < cols F ->
     nsum (cols T') (fun j => oval (ev (length l)) (sm T' x j) *r oval (ev (S (length l))) (sm F' j z)) =
     nsum (cols T) (fun j => oval (ev (length l)) (sm T x j) *r oval (ev (S (length l))) (sm F j z))) ->
  forall x, x < a -> mprod 0 (l ++ T' :: F' :: r) x y = mprod 0 (l ++ T :: F :: r) x y.
Proof.
  intros l T F T' F' r a b y Hc HR HC H x Hx.
  apply chain_app in Hc. destruct Hc as [c [Hc1 Hc2]]. simpl in Hc2. destruct Hc2 as [Hc2 [Hc3 Hc4]].
  apply (mprod_app_ext l 0 a c); auto. intros w Hw.
  rewrite !mprod_two. simpl plus. rewrite HC. apply nsum_ext. intros z Hz. f_equal. apply H; auto. lia.
Qed.

Lemma crel_num : forall k T F T' F', cols T = rows F -> crel T F T' F' -> forall x z, x < rows T -> z < cols F ->
     nsum (cols T') (fun j => oval (ev k) (sm T' x j) *r oval (ev (S k)) (sm F' j z)) =
     nsum (cols T) (fun j => oval (ev k) (sm T x j) *r oval (ev (S k)) (sm F j z)).
Proof.
  intros k T F T' F' Hd [[H1 [-> ->]]|[p [cy [tr [kept [C [O1 [O2 [H1 [H2 [H3 H4]]]]]]]]]]] x z Hx Hz; auto.
  rewrite <- (ccomp_num _ _ _ _ _ _ _ Rth cv cv_id _ _ _ _ _ _ _ _ _ _ _ _ _ C O1 O2 x z Hx Hz).
  apply nsum_ext. intros j Hj. rewrite H4 by auto. reflexivity.
Qed.
Lemma rrel_num : forall k T F T' F', rows T = cols F -> rrel T F T' F' -> forall x z, x < rows F -> z < cols T ->
     nsum (rows T') (fun j => oval (ev k) (sm F' x j) *r oval (ev (S k)) (sm T' j z)) =
     nsum (rows T) (fun j => oval (ev k) (sm F x j) *r oval (ev (S k)) (sm T j z)).
Proof.
  intros k T F T' F' Hd [[H1 [-> ->]]|[p [cy [tr [kept [C [O1 [O2 [H1 [H2 [H3 H4]]]]]]]]]]] x z Hx Hz; auto.
  transitivity (nsum (rows T) (fun j => oval (ev (S k)) (sm T j z) *r oval (ev k) (sm F x j))).
  2:{ apply nsum_ext. intros. ring. }
  rewrite <- (ccomp_num _ _ _ _ _ _ _ Rth cv cv_id _ _ _ _ _ _ _ _ _ _ _ _ _ C O1 O2 z x Hz Hx).
  apply nsum_ext. intros j Hj. rewrite H4 by auto. ring.
Qed.

(** The invariant of both sweeps. *)
Record pres (a b : nat) (ms0 ms : list opmat) : Prop := mkPres {
  pr_good : Forall good ms;
  pr_chain : chain a ms b;
  pr_len : length ms = length ms0;
  pr_le : bond_le ms ms0;
  pr_val : forall x y, x < a -> mprod 0 ms x y = mprod 0 ms0 x y
}.

Lemma pres_refl : forall a b ms, Forall good ms -> chain a ms b -> pres a b ms ms.
Proof. intros. constructor; auto. apply bond_le_refl. Qed.

Lemma bond_le_two : forall l r (T F T' F' : opmat), rows T' <= rows T -> cols T' <= cols T ->
  rows F' <= rows F -> cols F' <= cols F -> bond_le (l ++ T' :: F' :: r) (l ++ T :: F :: r).
Proof.
  intros. apply Forall2_app; [apply bond_le_refl|]. repeat (constructor; auto). apply bond_le_refl.
Qed.

Lemma pres_col : forall a b ms0 l T F r T' F', pres a b ms0 (l ++ T :: F :: r) ->
  crel T F T' F' -> good T' -> good F' -> pres a b ms0 (l ++ T' :: F' :: r).
Proof.
  intros a b ms0 l T F r T' F' [G C L B V] H GT' GF'.
  pose proof C as C0. apply chain_app in C. destruct C as [c [C1 C2]]. simpl in C2. destruct C2 as [C2 [C3 C4]].
  destruct (crel_dims T F T' F' (eq_sym C3) H) as [D1 [D2 [D3 D4]]].
  constructor.
  - apply Forall_app in G. destruct G as [G1 G2]. inversion G2; subst. inversion H3; subst.
    apply Forall_app. split; auto.
  - apply chain_app. exists c. split; auto. simpl. rewrite D1, D3. auto.
  - rewrite <- L, !app_length. reflexivity.
  - eapply bond_le_trans; [|exact B]. apply bond_le_two; lia.
  - intros x y Hx. rewrite <- V by auto.
    apply (mprod_replace l T F T' F' r a b y); auto. intros. apply crel_num; auto.
Qed.
Lemma pres_row : forall a b ms0 l T F r T' F', pres a b ms0 (l ++ F :: T :: r) ->
  rrel T F T' F' -> good T' -> good F' -> pres a b ms0 (l ++ F' :: T' :: r).
Proof.
  intros a b ms0 l T F r T' F' [G C L B V] H GT' GF'.
  pose proof C as C0. apply chain_app in C. destruct C as [c [C1 C2]]. simpl in C2. destruct C2 as [C2 [C3 C4]].
  destruct (rrel_dims T F T' F' C3 H) as [D1 [D2 [D3 D4]]].
  constructor.
  - apply Forall_app in G. destruct G as [G1 G2]. inversion G2; subst. inversion H3; subst.
    apply Forall_app. split; auto.
  - apply chain_app. exists c. split; auto. simpl. rewrite D1, D3. auto.
  - rewrite <- L, !app_length. reflexivity.
  - eapply bond_le_trans; [|exact B]. apply bond_le_two; lia.
  - intros x y Hx. rewrite <- V by auto.
    apply (mprod_replace l F T F' T' r a b y); auto. intros w z Hw Hz.
    rewrite <- D2, <- C3. apply rrel_num; auto.
Qed.

Lemma pres_nth : forall a b ms0 l T F r, pres a b ms0 (l ++ T :: F :: r) -> good T /\ good F /\ cols T = rows F.
Proof.
  intros a b ms0 l T F r [G C _ _ _]. apply Forall_app in G. destruct G as [_ G]. inversion G; subst.
  inversion H2; subst. apply chain_app in C. destruct C as [c [_ [_ [C _]]]]. auto.
Qed.

(** If the compression with assertions enabled finishes, the value of the chain is unchanged, whatever the
    chain is. *)
Theorem compress_chain_preserves : forall a b n ms ms', Forall good ms -> chain a ms b -> length ms = n ->
  compress_chain true n ms = Ok ms' -> pres a b ms ms'.
Proof.
  intros a b n ms ms' G C L H. unfold compress_chain in H.
  destruct (for_loop 0 (n - 1) (compress_lr true) ms) as [ms1| |] eqn:E1; try discriminate. cbn [bind] in H.
  assert (P1 : pres a b ms ms1).
  { apply (for_loop_inv_partial _ (fun _ m => pres a b ms m) _ _ _ _ _ (pres_refl a b ms G C)) in E1; auto.
    intros i x y Hi Hp Hx. pose proof (pr_len _ _ _ _ Hp) as Hl.
    destruct (split_two _ x i) as [l [T [F [r [-> Hil]]]]]; [lia|].
    rewrite <- Hil in Hx. apply compress_lr_inv in Hx. destruct Hx as [T' [F' [Hx ->]]].
    destruct (pres_nth _ _ _ _ _ _ _ Hp) as [GT [GF Hd]].
    destruct (col_step_true T F T' F' GT GF Hd Hx) as [Q1 [Q2 Q3]].
    eapply pres_col; eauto. }
  apply (for_loop_inv_partial _ (fun _ m => pres a b ms m) _ _ _ _ _ P1) in H; auto.
  intros i x y Hi Hp Hx. pose proof (pr_len _ _ _ _ Hp) as Hl.
  destruct (split_two _ x (n - 1 - i - 1)) as [l [F [T [r [-> Hil]]]]]; [lia|].
  apply compress_rl_inv in Hx; [|lia]. destruct Hx as [T' [F' [Hx ->]]].
  destruct (pres_nth _ _ _ _ _ _ _ Hp) as [GF [GT Hd]].
  destruct (row_step_true T F T' F' GT GF (eq_sym Hd) Hx) as [Q1 [Q2 Q3]].
  eapply pres_row; eauto.
Qed.
End NumChain.
