(** Equality of sparse matrices: sparse_mat.h 103-121 compares exactly the visible contents. *)
From Coq Require Import List Arith Lia Bool.
From Verif Require Import Base SparMat SparSpec.
Import ListNotations.

Section Eq.
Variables (E : Type) (nullE : E) (eqE : E -> E -> bool).

(** a double loop that accumulates a conjunction *)
Lemma and_loop : forall (f : nat -> res bool) (g : nat -> bool) n s b,
  (forall i, s <= i < s + n -> f i = Ok (g i)) ->
  for_loop s n (fun i b' => let! x := f i in Ok (b' && x)) b = Ok (b && forallb g (seq s n)).
Proof.
  intros f g. induction n as [|n IH]; intros s b H; cbn [for_loop seq forallb].
  - rewrite andb_true_r. reflexivity.
  - rewrite (H s) by lia. cbn [bind]. rewrite IH by (intros; apply H; lia). rewrite andb_assoc. reflexivity.
Qed.
Lemma loop_ext : forall S (f g : nat -> S -> res S) n s st, (forall i x, s <= i < s + n -> f i x = g i x) -> for_loop s n f st = for_loop s n g st.
Proof.
  intros S f g. induction n as [|n IH]; intros s st H; [reflexivity|]. cbn [for_loop]. rewrite H by lia. destruct (g s st); cbn [bind]; auto.
  apply IH. intros. apply H. lia.
Qed.

Definition same_contents (d1 d2 : dense E) : Prop :=
  dr E d1 = dr E d2 /\ dc E d1 = dc E d2 /\ forall r c, r < dr E d1 -> c < dc E d1 -> eqE (df E d1 r c) (df E d2 r c) = true.

Lemma mat_eq_spec : forall dbg m1 m2 d1 d2, shows E nullE eqE dbg m1 d1 -> shows E nullE eqE dbg m2 d2 ->
  exists b, mat_eq nullE eqE m1 m2 = Ok b /\ (b = true <-> same_contents d1 d2).
Proof.
  intros dbg m1 m2 d1 d2 [R1 [C1 [G1 _]]] [R2 [C2 [G2 _]]]. unfold mat_eq, same_contents. rewrite R1, R2, C1, C2.
  destruct (Nat.eqb_spec (dr E d1) (dr E d2)) as [Er|Er]; cbn [negb]; [|exists false; split; [reflexivity|]; split; [discriminate|tauto]].
  destruct (Nat.eqb_spec (dc E d1) (dc E d2)) as [Ec|Ec]; cbn [negb]; [|exists false; split; [reflexivity|]; split; [discriminate|tauto]].
  set (row := fun x => forallb (fun y => eqE (df E d1 x y) (df E d2 x y)) (seq 0 (dc E d1))).
  exists (true && forallb row (seq 0 (dr E d1))). split.
  - rewrite <- (and_loop (fun x => Ok (row x))) by reflexivity. apply loop_ext. intros x b Hx. cbn [bind].
    unfold row. rewrite <- (and_loop (fun y => Ok (eqE (df E d1 x y) (df E d2 x y)))) by reflexivity. apply loop_ext. intros y b' Hy. cbn [bind].
    destruct (G1 x y) as [-> _]; [lia|lia|]. destruct (G2 x y) as [-> _]; [lia|lia|]. reflexivity.
  - cbn [andb]. rewrite forallb_forall. split.
    + intros H. split; [exact Er|]. split; [exact Ec|]. intros r c Hr Hc. specialize (H r). unfold row in H. rewrite forallb_forall in H.
      apply H; apply in_seq; lia.
    + intros [_ [_ H]] x Hx. apply in_seq in Hx. unfold row. apply forallb_forall. intros y Hy. apply in_seq in Hy. apply H; lia.
Qed.

(** the same for the results of any two histories *)
Lemma exec_eq : forall dbg r1 c1 h1 r2 c2 h2 m1 m2 (H : forall dbg r c h, allowed_all E nullE eqE (zeros E nullE r c) h ->
    exists m, exec E nullE eqE dbg h (mat_new r c) = Ok m /\ shows E nullE eqE dbg m (effects E nullE eqE (zeros E nullE r c) h)),
  allowed_all E nullE eqE (zeros E nullE r1 c1) h1 -> allowed_all E nullE eqE (zeros E nullE r2 c2) h2 ->
  exec E nullE eqE dbg h1 (mat_new r1 c1) = Ok m1 -> exec E nullE eqE dbg h2 (mat_new r2 c2) = Ok m2 ->
  exists b, mat_eq nullE eqE m1 m2 = Ok b /\
    (b = true <-> same_contents (effects E nullE eqE (zeros E nullE r1 c1) h1) (effects E nullE eqE (zeros E nullE r2 c2) h2)).
Proof.
  intros dbg r1 c1 h1 r2 c2 h2 m1 m2 H A1 A2 E1 E2.
  destruct (H dbg r1 c1 h1 A1) as [n1 [X1 S1]]. destruct (H dbg r2 c2 h2 A2) as [n2 [X2 S2]].
  rewrite E1 in X1. rewrite E2 in X2. injection X1 as <-. injection X2 as <-. eapply mat_eq_spec; eassumption.
Qed.
End Eq.
