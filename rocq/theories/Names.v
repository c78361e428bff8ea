(** File names: one_dim_tn/mps/mps.h 31-34, finite_mpo.h 72-75 and 231, two_site_update_finite_vmps_impl.h 51-57,
    dmrg/operator_io.h 21-32, consts.h. *)
From Coq Require Import List Arith Lia Bool String Ascii Decimal DecimalNat DecimalString.
Import ListNotations.
Local Open Scope string_scope.

(** std::to_string of an unsigned number *)
Definition dec (n : nat) : string := NilEmpty.string_of_uint (Nat.to_uint n).
Lemma dec_inj : forall n m, dec n = dec m -> n = m.
Proof.
  intros n m H. apply Unsigned.to_uint_inj. assert (E : Some (Nat.to_uint n) = Some (Nat.to_uint m)) by (rewrite <- !NilEmpty.usu; unfold dec in H; rewrite H; auto).
  congruence.
Qed.

Section Names.
Variable suffix : string.   (* kQLTenFileSuffix of the tensor library *)
Inductive kind : Type :=
| KMps (i : nat)                          (* MPS tensor *)
| KMpo (i : nat)                          (* MPO tensor *)
| KCenter                                 (* center of an MPO *)
| KEnv (left : bool) (len : nat)          (* environment; a negative length is not modelled *)
| KOp (left : bool) (len comp : nat).     (* block operator *)
Definition dirname (left : bool) : string := if left then "l" else "r".
Definition tail (k : kind) : string :=
  match k with
  | KMps i => "mps_ten" ++ dec i ++ "." ++ suffix
  | KMpo i => "mpo" ++ dec i ++ "." ++ suffix
  | KCenter => "center"
  | KEnv l n => dirname l ++ "env" ++ dec n ++ "." ++ suffix
  | KOp l n c => dirname l ++ "op" ++ dec n ++ "Comp" ++ dec c ++ "." ++ suffix
  end.
Definition file_name (path : string) (k : kind) : string := path ++ "/" ++ tail k.

Fixpoint no_char (c : ascii) (s : string) : Prop := match s with EmptyString => True | String a r => a <> c /\ no_char c r end.
Lemma no_char_app : forall c s t, no_char c s -> no_char c t -> no_char c (s ++ t).
Proof. induction s; simpl; intros; auto. destruct H. auto. Qed.
Lemma no_char_uint : forall u c, (forall d, In d ["0"; "1"; "2"; "3"; "4"; "5"; "6"; "7"; "8"; "9"]%char -> d <> c) -> no_char c (NilEmpty.string_of_uint u).
Proof. induction u; intros c H; simpl; auto; split; auto; apply H; simpl; tauto. Qed.
Lemma no_char_dec : forall n c, (forall d, In d ["0"; "1"; "2"; "3"; "4"; "5"; "6"; "7"; "8"; "9"]%char -> d <> c) -> no_char c (dec n).
Proof. intros. apply no_char_uint. auto. Qed.
Lemma app_cancel_l : forall p s t, p ++ s = p ++ t -> s = t.
Proof. induction p; simpl; intros s t H; auto. injection H as H. auto. Qed.
Lemma app_len : forall s t, String.length (s ++ t) = String.length s + String.length t.
Proof. induction s; simpl; intros; auto. Qed.
Lemma app_cancel_r : forall s t r, s ++ r = t ++ r -> s = t.
Proof.
  induction s as [|a s IH]; intros t r H; destruct t as [|b t]; simpl in H; auto.
  - assert (L : String.length r = String.length (String b (t ++ r))) by (rewrite <- H; auto). simpl in L. rewrite app_len in L. lia.
  - assert (L : String.length r = String.length (String a (s ++ r))) by (rewrite H; auto). simpl in L. rewrite app_len in L. lia.
  - injection H as -> H. f_equal. eauto.
Qed.
(** text before and after a separator that occurs only once at the cut *)
Lemma split_first : forall c s s' t t', no_char c s -> no_char c s' -> s ++ String c t = s' ++ String c t' -> s = s' /\ t = t'.
Proof.
  induction s as [|a s IH]; intros s' t t' H1 H2 H; destruct s' as [|b s']; simpl in *.
  - injection H as <-. auto.
  - injection H as -> H. destruct H2. congruence.
  - injection H as <- H. destruct H1. congruence.
  - injection H as -> H. destruct (IH s' t t') as [-> ->]; tauto.
Qed.
Lemma split_last : forall c p p' s s', no_char c s -> no_char c s' -> p ++ String c s = p' ++ String c s' -> p = p' /\ s = s'.
Proof.
  assert (NC : forall c p s t, no_char c s -> s = p ++ String c t -> False).
  { induction p as [|a p IH]; intros s t H E; subst s; simpl in H; [destruct H; congruence|]. destruct H as [_ H]. eapply IH; eauto. }
  induction p as [|a p IH]; intros p' s s' H1 H2 H; destruct p' as [|b p']; simpl in *.
  - injection H as <-. auto.
  - injection H as E H. exfalso. exact (NC c p' s s' H1 H).
  - injection H as E H. exfalso. exact (NC c p s' s H2 (eq_sym H)).
  - injection H as -> H. destruct (IH p' s s') as [-> ->]; auto.
Qed.
Hypothesis suffix_plain : no_char "/" suffix.
Lemma tail_plain : forall k, no_char "/" (tail k).
Proof.
  assert (D : forall n, no_char "/" (dec n)) by (intros; apply no_char_dec; intros d H; simpl in H; decompose [or] H; subst; try discriminate; contradiction).
  intros k. destruct k as [i|i| |l n|l n c]; simpl; try destruct l; simpl; repeat (split; [discriminate|]); auto; repeat (apply no_char_app; auto; simpl; repeat (split; [discriminate|]); auto).
Qed.
Lemma tail_inj : forall k k', tail k = tail k' -> k = k'.
Proof.
  assert (N : forall n m t, (dec n ++ "." ++ t)%string = (dec m ++ "." ++ t)%string -> n = m) by (intros n m t H; apply dec_inj; eapply app_cancel_r; eauto).
  assert (DP : forall n, no_char "C" (dec n)) by (intros; apply no_char_dec; intros d H; simpl in H; decompose [or] H; subst; try discriminate; contradiction).
  assert (N2 : forall n m c c', (dec n ++ "Comp" ++ dec c ++ "." ++ suffix)%string = (dec m ++ "Comp" ++ dec c' ++ "." ++ suffix)%string -> n = m /\ c = c').
  { intros n m c c' H. destruct (split_first "C" (dec n) (dec m) _ _ (DP n) (DP m) H) as [H1 H2]. split; [apply dec_inj; auto|].
    injection H2 as H2. exact (N _ _ suffix H2). }
  intros k k' H. destruct k as [i|i| |l n|l n c], k' as [i'|i'| |l' n'|l' n' c']; simpl in H; try destruct l; try destruct l'; simpl in H; try discriminate; auto;
    repeat (match type of H with String _ _ = String _ _ => injection H as H end);
    first [apply N in H; subst; reflexivity | apply N2 in H; destruct H; subst; reflexivity].
Qed.
Theorem file_name_inj : forall p p' k k', file_name p k = file_name p' k' -> p = p' /\ k = k'.
Proof.
  intros p p' k k' H. unfold file_name in H. simpl in H. apply split_last in H; try apply tail_plain. destruct H as [-> H]. split; auto. apply tail_inj. auto.
Qed.
End Names.
