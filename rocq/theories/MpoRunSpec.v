(** Specification of whole generator runs: any mixture of the three AddTerm overloads, then Gen. *)
From Coq Require Import List Arith Bool.
From Verif Require Import Base MpoGen MpoSpec MpoTopSpec.
Import ListNotations.

Section Spec.
Variables (R : Type) (r0 r1 : R) (rmul : R -> R -> R) (ropp : R -> R) (reqb : R -> R -> bool) (isneg small : R -> bool).
Notation lop := (lop R).

(** a call of AddTerm: the generic one, the one with insertion operators, the one- or two-body one *)
Inductive acall : Type :=
| ATerm (c : R) (ops : list lop) (idxs : list nat)
| AInst (c : R) (phys : list lop) (pidx : list nat) (inst : list lop) (inst_idxs : list (list nat))
| ATwo (c : R) (op1 : lop) (i1 : nat) (op2 : option lop) (i2 : nat) (inst : option lop) (inst_idxs : list nat).
Definition acoef (a : acall) : R := match a with ATerm c _ _ => c | AInst c _ _ _ _ => c | ATwo c _ _ _ _ _ _ => c end.
Definition exec_call (dbg : bool) (a : acall) (g : gen R) : res (gen R) :=
  match a with
  | ATerm c ops idxs => add_term R r0 ropp reqb isneg small dbg g c ops idxs
  | AInst c phys pidx inst ii => add_term_inst R r0 ropp reqb isneg small dbg g c phys pidx inst ii
  | ATwo c o1 i1 o2 i2 f ii => add_term2 R r0 ropp reqb isneg small dbg g c o1 i1 o2 i2 f ii
  end.
Definition run (dbg : bool) (sites : list nat) (idops : list lop) (calls : list acall) : res (gen R) :=
  for_each calls (exec_call dbg) (gen_new R r1 reqb sites idops).
Definition acounted (a : acall) : bool := negb (reqb (acoef a) r0) && negb (small (acoef a)).

Variables (sites : list nat) (idops : list lop).
Definition fits (o : lop) (i : nat) : Prop := nth_error sites i = Some (lo_ix o).
Definition id_on (i : nat) : lop := nth i idops (mkLop 0 []).

(** [means a op]: [a] is a legal call and stands for coefficient times [op 0] x [op 1] x ... *)
Definition means_term (ops : list lop) (idxs : list nat) (op : nat -> lop) : Prop :=
  ops <> [] /\ length ops = length idxs /\ NoDup idxs /\
  (forall k o i, nth_error ops k = Some o -> nth_error idxs k = Some i -> fits o i /\ op i = o) /\
  (forall i, ~ In i idxs -> op i = id_on i).
Definition means_strings (phys : list lop) (pidx : list nat) (inst : list lop) (op : nat -> lop) : Prop :=
  let m := length phys in
  2 <= m /\ length pidx = m /\ (length inst = m - 1 \/ length inst = m) /\
  (forall k p a, nth_error phys k = Some p -> nth_error pidx k = Some a -> fits p a /\ op a = p) /\
  (forall k a b, nth_error pidx k = Some a -> nth_error pidx (S k) = Some b -> a < b) /\
  (forall k a b f i, nth_error pidx k = Some a -> nth_error pidx (S k) = Some b -> nth_error inst k = Some f ->
     a < i < b -> fits f i /\ op i = f) /\
  (forall i, i < nth 0 pidx 0 -> op i = id_on i) /\
  (length inst = m - 1 -> forall i, nth (m - 1) pidx 0 < i -> op i = id_on i) /\
  (forall f, length inst = m -> nth_error inst (m - 1) = Some f ->
     (forall i, nth (m - 1) pidx 0 <= i < length sites -> fits f i) /\
     (forall i, nth (m - 1) pidx 0 < i < length sites -> op i = f)).
Definition means_explicit (phys : list lop) (pidx : list nat) (inst : list lop) (ii : list (list nat)) (op : nat -> lop) : Prop :=
  let m := length phys in
  2 <= m /\ length pidx = m /\ (length inst = m - 1 \/ length inst = m) /\ length ii = length inst /\
  NoDup (pidx ++ concat ii) /\
  (forall k p a, nth_error phys k = Some p -> nth_error pidx k = Some a -> fits p a /\ op a = p) /\
  (forall k f js i, nth_error inst k = Some f -> nth_error ii k = Some js -> In i js -> fits f i /\ op i = f) /\
  (forall i, ~ In i (pidx ++ concat ii) -> op i = id_on i).
Definition means (a : acall) (op : nat -> lop) : Prop :=
  match a with
  | ATerm _ ops idxs => means_term ops idxs op
  | AInst _ phys pidx inst [] => means_strings phys pidx inst op
  | AInst _ phys pidx inst ii => means_explicit phys pidx inst ii op
  | ATwo _ o1 i1 None _ _ _ => means_term [o1] [i1] op
  | ATwo _ o1 i1 (Some o2) i2 None _ => i2 <> 0 /\ means_term [o1; o2] [i1; i2] op
  | ATwo _ o1 i1 (Some o2) i2 (Some f) [] => means_strings [o1; o2] [i1; i2] [f] op
  | ATwo _ o1 i1 (Some o2) i2 (Some f) ii => i2 <> 0 /\ means_explicit [o1; o2] [i1; i2] [f] [ii] op
  end.

(** the call has an implicit tail string whose operator starts with a negative number *)
Definition tail_neg (a : acall) : bool :=
  match a with
  | AInst _ phys _ inst [] => (length inst =? length phys) &&
      match nth_error inst (length inst - 1) with Some f => isneg (first_nonzero R r0 reqb f) | None => false end
  | _ => false
  end.
(** one-site calls *)
Definition one_site (a : acall) : option (lop * nat) :=
  match a with
  | ATerm _ [o] [i] => Some (o, i)
  | ATwo _ o i None _ _ _ => Some (o, i)
  | _ => None
  end.
(** no one-site term is given twice (up to moving a sign between coefficient and operator) *)
Definition no_twice (calls : list acall) : Prop :=
  forall j j' a a' o o' i, j < j' -> nth_error calls j = Some a -> nth_error calls j' = Some a' ->
    one_site a = Some (o, i) -> one_site a' = Some (o', i) ->
    sign_free R r0 ropp reqb isneg (acoef a) o <> sign_free R r0 ropp reqb isneg (acoef a') o'.

(** Call number [j] is a one-site term, its site already has one-site terms, and all of them equal it. *)
Definition a_repeated (calls : list acall) (j : nat) : Prop :=
  exists a o i, nth_error calls j = Some a /\ one_site a = Some (o, i) /\
    (exists j' a' o', j' < j /\ nth_error calls j' = Some a' /\ one_site a' = Some (o', i)) /\
    (forall j' a' o', j' < j -> nth_error calls j' = Some a' -> one_site a' = Some (o', i) ->
       sign_free R r0 ropp reqb isneg (acoef a') o' = sign_free R r0 ropp reqb isneg (acoef a) o).

(** <s| c * op 0 x op 1 x ... |s'> *)
Definition prod_elem (c : R) (op : nat -> lop) (s s' : nat -> nat) : R :=
  rmul c (rprod R r1 rmul (length sites) 0 (fun i => elem r0 (op i) (s i) (s' i))).

(** the operators of a term are matrices of the dimension of their index, their non-zero elements lie in blocks of
    their divergence, and the divergences add up to zero *)
Variables (pd : nat -> nat) (Q : Type) (q0 : Q) (qsub : Q -> Q -> Q) (dv : lop -> Q) (blk : nat -> nat -> nat -> Q -> Prop).
Definition physical (op : nat -> lop) : Prop :=
  (forall i, i < length sites -> square R pd (op i) /\ block_op R r0 Q dv blk (op i)) /\
  fold_left (fun q i => qsub q (dv (op i))) (seq 0 (length sites)) q0 = q0.
(** legal calls with the operators they stand for; calls whose coefficient is ignored need not conserve anything *)
Definition legal (calls : list acall) (ops : list (nat -> lop)) : Prop :=
  Forall2 (fun a op => means a op /\ (acounted a = true -> physical op)) calls ops.
(** the sum of the terms whose coefficient is not ignored *)
Fixpoint total (radd : R -> R -> R) (calls : list acall) (ops : list (nat -> lop)) (s s' : nat -> nat) : R :=
  match calls, ops with
  | a :: calls', op :: ops' =>
      radd (if acounted a then prod_elem (acoef a) op s s' else r0) (total radd calls' ops' s s')
  | _, _ => r0
  end.
End Spec.
