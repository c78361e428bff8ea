(** A concrete instance: tensors are numbers, environments list what they were built from. *)
From Coq Require Import List Arith Lia Bool.
From Verif Require Import Base Disk SweepSpec DiskFacts TwoSite TwoSiteFacts TwoSiteCrash.
Import ListNotations.

Definition ex_triv (s : side) : list nat := [].
Definition ex_grow (s : side) (i : nat) (e : list nat) (t : nat) : list nat := t :: e.
Definition ex_solve (rt : bool) (i : nat) (l : list nat) (a b : nat) (r : list nat) : nat * nat * (list nat * list nat) :=
  ((3 * a + b + 2 + length l) mod 17, (b + 2 * a + hd 0 l + 5 * hd 0 r) mod 19, (l, r)).
Definition ex_c (a b : nat) : nat * nat := (a, b).
Definition ex_ts (i : nat) : nat := i + 3.
Definition ex_w (N : nat) : world nat (list nat) (list nat * list nat) :=
  mkW _ _ _ N fnone 0 fnone fnone None None (fun i => Some (ex_ts i)) fnone fnone false.
Lemma ex_startable : startable nat (list nat) (list nat * list nat) ex_triv ex_grow 4 ex_ts (ex_w 4).
Proof. repeat split; auto; try discriminate. Qed.
Definition ex_run (k : nat) (w : world nat (list nat) (list nat * list nat)) := run_two_site _ _ _ 0 [] ex_triv ex_grow ex_solve ex_c ex_c true k w.
Definition ex_exec (p : list instr) (w : world nat (list nat) (list nat * list nat)) := exec _ _ _ 0 [] ex_triv ex_grow ex_solve ex_c ex_c true p w.

Section Short.
Variables T E En : Type.
Variables (dT : T) (dE : E) (triv : side -> E) (grow : side -> nat -> E -> T -> E) (solve : bool -> nat -> E -> T -> T -> E -> T * T * En).
Variables (canoL canoR : T -> T -> T * T).
Variable dbg : bool.
Notation exec := (exec T E En dT dE triv grow solve canoL canoR dbg).
Definition no_upd (c : instr) : Prop := match c with Upd2 _ _ => False | _ => True end.
Lemma eng_kept1 : forall c w w', no_upd c -> exec1 T E En dT dE triv grow solve canoL canoR dbg c w = Ok w' -> eng T E En w' = eng T E En w.
Proof.
  intros c w w' HN H. destruct c; cbn [exec1 no_upd] in *; try contradiction; try (dstr H; subst w'; try destruct s; reflexivity).
  - destruct (getM T E En i w) as [a| |]; cbn [bind] in H; try discriminate. destruct (getM T E En (i + 1) w) as [b| |]; cbn [bind] in H; try discriminate. destruct (canoL a b) as [a' b'].
    unfold putM in H. destruct (i <? nm T E En w); cbn [bind] in H; [|discriminate]. dstr H. subst w'. reflexivity.
  - destruct (getM T E En (i - 1) w) as [a| |]; cbn [bind] in H; try discriminate. destruct (getM T E En i w) as [b| |]; cbn [bind] in H; try discriminate. destruct (canoR a b) as [a' b'].
    unfold putM in H. destruct (i - 1 <? nm T E En w); cbn [bind] in H; [|discriminate]. dstr H. subst w'. reflexivity.
Qed.
Lemma eng_kept : forall p w w', Forall no_upd p -> exec p w = Ok w' -> eng T E En w' = eng T E En w.
Proof.
  induction p as [|c p IH]; intros w w' HF H; simpl in H; [injection H as <-; auto|]. destruct (exec1 T E En dT dE triv grow solve canoL canoR dbg c w) as [w1| |] eqn:E1; cbn [bind] in H; try discriminate.
  rewrite (IH _ _ (Forall_inv_tail HF) H). apply (eng_kept1 c); auto. exact (Forall_inv HF).
Qed.
Lemma run_undefined : forall k w, (nm T E En w = 2 \/ (k = 0 /\ 2 <= nm T E En w)) -> forall r, run_two_site T E En dT dE triv grow solve canoL canoR dbg k w <> Ok r.
Proof.
  intros k w HN r H. unfold run_two_site in H. destruct (exec _ _) as [w1| |] eqn:E1; cbn [bind] in H; try discriminate.
  apply eng_kept in E1; [rewrite E1 in H; discriminate|]. unfold two_site.
  assert (FI : forall n usn, Forall no_upd (init_envs n usn)).
  { intros n usn. unfold init_envs. apply Forall_app. split; [repeat constructor|]. apply Forall_app. split; [|repeat constructor].
    generalize (seq 1 (n - usn)). induction l as [|i l IH]; cbn [flat_map]; [constructor|]. apply Forall_app. split; auto. destruct (1 <? i); repeat constructor. }
  apply Forall_app. split; [repeat constructor|]. apply Forall_app. split; [destruct (tmp T E En w); [constructor|constructor; [exact I|apply FI]]|].
  apply Forall_app. split; [repeat constructor|]. apply Forall_app. split; [|repeat constructor].
  destruct HN as [-> | [-> _]]; [|constructor]. clear E1; induction k as [|k IH]; cbn [repeat concat]; [constructor|]. apply Forall_app. split; auto. repeat constructor.
Qed.
End Short.
