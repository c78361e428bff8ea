(** Specification side of whole generator runs: a list of AddTerm calls followed by Gen. *)
From Coq Require Import List Arith Bool.
From Verif Require Import Base MpoGen MpoSpec.
Import ListNotations.

Section Spec.
Variables (R : Type) (r0 : R) (reqb : R -> R -> bool) (small : R -> bool).
(** coefficients that AddTerm takes into account: non-zero and not below the threshold *)
Definition counted (t : call R) : bool := negb (reqb (fst t) r0) && negb (small (fst t)).

(** the physical side: [pd ix] is the dimension of physical index [ix] *)
Variable pd : nat -> nat.
Definition square (o : lop R) : Prop :=
  length (lo_dat o) = pd (lo_ix o) /\ Forall (fun r => length r = pd (lo_ix o)) (lo_dat o).
Definition square_call (t : call R) : Prop := Forall (fun p => square (fst p)) (snd t).

(** conserved quantum numbers: [dv o] is the divergence of an operator.  A term conserves them when its total
    divergence vanishes. *)
Variables (Q : Type) (q0 : Q) (qsub : Q -> Q -> Q) (dv : lop R -> Q).
Definition conserves (idops : list (lop R)) (t : call R) : Prop :=
  fold_left (fun q i => qsub q (dv (op_on idops (snd t) i))) (seq 0 (length idops)) q0 = q0.
(** identity of every site: right index, right shape, trivial divergence *)
Definition good_ids (sites : list nat) (idops : list (lop R)) : Prop :=
  Forall2 (fun ix o => lo_ix o = ix /\ square o /\ forall q, qsub q (dv o) = q) sites idops.
(** the non-zero elements of an operator lie in blocks of its divergence *)
Variable blk : nat -> nat -> nat -> Q -> Prop.
Definition block_op (o : lop R) : Prop := forall a b, elem r0 o a b <> r0 -> blk (lo_ix o) a b (dv o).
End Spec.
