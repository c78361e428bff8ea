(** Property C59: terms added to the infinite MPO generator (finding: none can be added). *)
From Coq Require Import List Arith Lia Bool ZArith.
From Verif Require Import Base IFsm IFsmFacts.
Import ListNotations.

(** for every unit cell, every program of AddTerm calls that catches the exceptions and goes on, with or without assertions:
    no call returns normally, whatever the sites and the operators made of the term are *)
Theorem C59_no_term_can_be_added_refuted : forall (Op : Type) (eqO : Op -> Op -> bool) dbg n ids f,
  ifsm_new Op dbg n ids = Ok f -> forall ts, Forall (fun r => r <> Ok tt) (snd (add_terms Op eqO dbg f ts)).
Proof. exact (fun Op eqO dbg n ids f H ts => add_terms_never Op eqO dbg ts f (new_good Op eqO dbg n ids f H)). Qed.
(** in particular a first term *)
Theorem C59_first_term_refuted : forall (Op : Type) (eqO : Op -> Op -> bool) dbg n ids f head ops,
  ifsm_new Op dbg n ids = Ok f -> snd (add_path Op eqO dbg f head ops) <> Ok tt.
Proof.
  intros Op eqO dbg n ids f head ops H. destruct (add_path Op eqO dbg f head ops) as [f' r] eqn:E.
  exact (proj2 (proj2 (add_path_never Op eqO dbg f head ops f' r (new_good Op eqO dbg n ids f H) E))).
Qed.
(** two sites per cell, identity 0: a nearest-neighbour term 5 5 throws and leaves a new state behind, the same term again ends the
    process ("Same Operator Terms!"), a term with an identity first throws, a term over three sites throws *)
Example C59_case : exists f, ifsm_new nat true 2 [0; 0] = Ok f /\
  snd (add_terms nat Nat.eqb false f [([0; 1], Ok [5; 5]); ([0; 1], Ok [5; 5]); ([0; 1], Ok [0; 5]); ([0; 2], Ok [5; 0; 5]); ([1; 2], Ok [5; 5])]) = [Abort; Abort; Abort; Abort; Abort] /\
  mids (fst (add_path nat Nat.eqb false f 0 [5; 5])) = [0; 1] /\ paths (fst (add_path nat Nat.eqb false f 0 [5; 5])) = [].
Proof. eexists. split; [reflexivity|]. split; [reflexivity|]. split; reflexivity. Qed.

Print Assumptions C59_no_term_can_be_added_refuted.
Print Assumptions C59_first_term_refuted.
