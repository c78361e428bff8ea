(** Specification side of MPO generation: what a chain of MPO tensors means and when its bonds are well formed. *)
From Coq Require Import List Arith Bool.
From Verif Require Import MpoGen MpoTen.
Import ListNotations.

Section Spec.
Variables (R : Type) (r0 r1 : R) (radd rmul : R -> R -> R) (reqb : R -> R -> bool).
Variables (Q : Type).

(** dimension of a bond and quantum number of one of its coordinates *)
Definition bdim (v : list (Q * nat)) : nat := fold_right (fun p a => snd p + a) 0 v.
Definition sectors (v : list (Q * nat)) : list Q := flat_map (fun p => repeat (fst p) (snd p)) v.

(** sum over k = 0 .. n-1 *)
Definition sum_to (n : nat) (f : nat -> R) : R := fold_right (fun k a => radd (f k) a) r0 (seq 0 n).

(** <s| MPO |s'>: all bonds contracted, the leftmost one at coordinate [x], the rightmost at 0; [k] is the site of
    the first tensor. *)
Fixpoint mpo_from (k : nat) (ts : list (mten R Q)) (s s' : nat -> nat) (x : nat) : R :=
  match ts with
  | [] => if x =? 0 then r1 else r0
  | t :: ts' => sum_to (bdim (mt_r t)) (fun y =>
                  rmul (ten_elem R r0 reqb (mt_w t) x (s k) (s' k) y) (mpo_from (S k) ts' s s' y))
  end.
Definition mpo_amp (ts : list (mten R Q)) (s s' : nat -> nat) : R := mpo_from 0 ts s s' 0.

(** the same for matrices of operators *)
Fixpoint matmpo_from (k : nat) (ts : list (nat * nat * list (nat * nat * lop R))) (s s' : nat -> nat) (x : nat) : R :=
  match ts with
  | [] => if x =? 0 then r1 else r0
  | t :: ts' => sum_to (snd (fst t)) (fun y =>
                  rmul (ten_elem R r0 reqb (snd t) x (s k) (s' k) y) (matmpo_from (S k) ts' s s' y))
  end.
Definition matmpo_amp ts (s s' : nat -> nat) : R := matmpo_from 0 ts s s' 0.

(** *** well formed chain of tensors: bond [v] to the left of it, trivial bond at the right end *)
Variables (q0 : Q) (qsub : Q -> Q -> Q).
Fixpoint bonds (v : list (Q * nat)) (ts : list (mten R Q)) : Prop :=
  match ts with
  | [] => v = [(q0, 1)]
  | t :: ts' => mt_l t = v /\ bonds (mt_r t) ts'
  end.
(** different sectors have different quantum numbers and no sector is empty *)
Definition bond_sorted (v : list (Q * nat)) : Prop := NoDup (map fst v) /\ Forall (fun p => 1 <= snd p) v.

(** [blk ix a b d]: an operator of divergence [d] on physical index [ix] may have a non-zero element (a, b) *)
Variable blk : nat -> nat -> nat -> Q -> Prop.
(** operators are written inside the bonds, on the index of the site, never twice at one place; every non-zero
    element of the tensor lies in a block allowed by the quantum numbers of its four indexes *)
Definition ten_ok (ix : nat) (t : mten R Q) : Prop :=
  bond_sorted (mt_l t) /\ bond_sorted (mt_r t) /\
  NoDup (map fst (mt_w t)) /\
  Forall (fun e => fst (fst e) < bdim (mt_l t) /\ snd (fst e) < bdim (mt_r t) /\ lo_ix (snd e) = ix) (mt_w t) /\
  forall x a b y, ten_elem R r0 reqb (mt_w t) x a b y <> r0 ->
    exists ql qr d, nth_error (sectors (mt_l t)) x = Some ql /\ nth_error (sectors (mt_r t)) y = Some qr /\
      qr = qsub ql d /\ blk ix a b d.
Definition mpo_ok (sites : list nat) (ts : list (mten R Q)) : Prop :=
  bonds [(q0, 1)] ts /\ Forall2 ten_ok sites ts.
End Spec.
