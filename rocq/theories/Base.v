(** Shared basis: outcomes of C++ code and checked [std::vector] access. *)
From Coq Require Import List Arith Lia Bool ZArith.
Import ListNotations.

(** Outcome of a piece of C++ code.  [Ub]: undefined behaviour (out-of-range [operator[]], null
    dereference, ...).  [Abort]: a failing [assert], [exit(1)] or an exception. *)
Inductive res (A : Type) : Type :=
| Ok (a : A)
| Ub
| Abort.
Arguments Ok {A} _.
Arguments Ub {A}.
Arguments Abort {A}.

Definition bind {A B} (x : res A) (f : A -> res B) : res B :=
  match x with Ok a => f a | Ub => Ub | Abort => Abort end.

Notation "'let!' x ':=' e1 'in' e2" := (bind e1 (fun x => e2))
  (at level 200, x pattern, e1 at level 100, e2 at level 200).

(** C [assert(b)] : [dbg] is true when NDEBUG is not defined. *)
Definition assert_ (dbg b : bool) : res unit :=
  if dbg then (if b then Ok tt else Abort) else Ok tt.

(** Unchecked [v[i]] : out of range is undefined behaviour. *)
Definition vget {A} (l : list A) (i : nat) : res A :=
  match nth_error l i with Some a => Ok a | None => Ub end.

Fixpoint upd {A} (l : list A) (i : nat) (a : A) : list A :=
  match l, i with
  | [], _ => []
  | _ :: t, 0 => a :: t
  | h :: t, S j => h :: upd t j a
  end.

Definition vset {A} (l : list A) (i : nat) (a : A) : res (list A) :=
  if i <? length l then Ok (upd l i a) else Ub.

(** [for (i = s; i < s + n; ++i) body] over a state. *)
Fixpoint for_loop {S} (s n : nat) (body : nat -> S -> res S) (st : S) : res S :=
  match n with
  | 0 => Ok st
  | Datatypes.S m => let! st' := body s st in for_loop (Datatypes.S s) m body st'
  end.

(** [for (x : l) body]. *)
Fixpoint for_each {X S} (l : list X) (body : X -> S -> res S) (st : S) : res S :=
  match l with
  | [] => Ok st
  | x :: t => let! st' := body x st in for_each t body st'
  end.

Lemma upd_length : forall A (l : list A) i a, length (upd l i a) = length l.
Proof. induction l; intros [|i] b; simpl; auto. Qed.

Lemma nth_error_upd : forall A (l : list A) i j a,
  nth_error (upd l i a) j =
  if (i =? j) && (i <? length l) then Some a else nth_error l j.
Proof.
  induction l as [|h t IH]; intros i j a; simpl.
  - destruct i, j; simpl; rewrite ?andb_false_r; reflexivity.
  - destruct i, j; simpl; auto.
    + rewrite IH. reflexivity.
Qed.

Lemma nth_error_upd_same : forall A (l : list A) i a,
  i < length l -> nth_error (upd l i a) i = Some a.
Proof.
  intros. rewrite nth_error_upd, Nat.eqb_refl.
  apply Nat.ltb_lt in H. rewrite H. reflexivity.
Qed.

Lemma nth_error_upd_other : forall A (l : list A) i j a,
  i <> j -> nth_error (upd l i a) j = nth_error l j.
Proof.
  intros. rewrite nth_error_upd. apply Nat.eqb_neq in H. rewrite H. reflexivity.
Qed.

Lemma vset_ok : forall A (l : list A) i a, i < length l -> vset l i a = Ok (upd l i a).
Proof. intros. unfold vset. apply Nat.ltb_lt in H. rewrite H. reflexivity. Qed.

Lemma vget_ok : forall A (l : list A) i, i < length l -> exists a, vget l i = Ok a /\ nth_error l i = Some a.
Proof.
  intros. unfold vget. destruct (nth_error l i) eqn:E.
  - eauto.
  - apply nth_error_None in E. lia.
Qed.

Lemma nth_error_ext : forall A (l1 l2 : list A),
  (forall i, nth_error l1 i = nth_error l2 i) -> l1 = l2.
Proof.
  induction l1; intros [|b l2] H; auto.
  - specialize (H 0); discriminate.
  - specialize (H 0); discriminate.
  - f_equal.
    + specialize (H 0); simpl in H; congruence.
    + apply IHl1. intro i. specialize (H (S i)). exact H.
Qed.

Lemma bind_ok : forall A B (x : res A) (f : A -> res B) b,
  bind x f = Ok b -> exists a, x = Ok a /\ f a = Ok b.
Proof. intros A B [a| |] f b H; simpl in H; try discriminate. eauto. Qed.

Ltac inv_bind H :=
  let a := fresh "a" in let H1 := fresh "Hb" in
  apply bind_ok in H; destruct H as [a [H1 H]].

(** A loop whose body succeeds and preserves an indexed invariant succeeds. *)
Lemma for_loop_inv : forall S (P : nat -> S -> Prop) body n s st,
  P s st ->
  (forall i x, s <= i < s + n -> P i x -> exists y, body i x = Ok y /\ P (Datatypes.S i) y) ->
  exists st', for_loop s n body st = Ok st' /\ P (s + n) st'.
Proof.
  intros S P body. induction n; intros s st H0 Hstep; simpl.
  - exists st. rewrite Nat.add_0_r. auto.
  - destruct (Hstep s st) as [y [Hy Py]]; auto; try lia.
    rewrite Hy; simpl.
    destruct (IHn (Datatypes.S s) y Py) as [z [Hz Pz]].
    + intros. apply Hstep; auto; lia.
    + exists z. split; auto. replace (s + Datatypes.S n) with (Datatypes.S s + n) by lia. auto.
Qed.

(** Partial-correctness version. *)
Lemma for_loop_inv_partial : forall S (P : nat -> S -> Prop) body n s st st',
  P s st ->
  (forall i x y, s <= i < s + n -> P i x -> body i x = Ok y -> P (Datatypes.S i) y) ->
  for_loop s n body st = Ok st' -> P (s + n) st'.
Proof.
  intros S P body. induction n; intros s st st' H0 Hstep Hr; simpl in Hr.
  - inversion Hr; subst. rewrite Nat.add_0_r. auto.
  - inv_bind Hr.
    replace (s + Datatypes.S n) with (Datatypes.S s + n) by lia.
    eapply IHn; [| |exact Hr].
    + eapply Hstep; eauto; lia.
    + intros. eapply Hstep; eauto; lia.
Qed.
