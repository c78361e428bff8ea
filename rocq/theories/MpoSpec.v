(** Specification side of the MPO generator: what a list of AddTerm calls means.  A many-body operator on [n]
    sites is given by its matrix elements <s|O|s'> between configurations [s], [s'] (one basis state per site). *)
From Coq Require Import List Arith Bool.
From Verif Require Import MpoGen.
Import ListNotations.

Section Spec.
Variables (R : Type) (r0 r1 : R) (radd rmul : R -> R -> R) (ropp : R -> R) (reqb : R -> R -> bool) (isneg : R -> bool).
Notation lop := (lop R).

(** a term: coefficient and (operator, site) pairs *)
Definition call : Type := R * list (lop * nat).

(** matrix element of a local operator *)
Definition elem (o : lop) (a b : nat) : R := nth b (nth a (lo_dat o) []) r0.
(** operator of the term on site [i]; identity if the term has none there *)
Definition op_on (idops : list lop) (P : list (lop * nat)) (i : nat) : lop :=
  match find (fun p => i =? snd p) P with Some p => fst p | None => nth i idops (mkLop 0 []) end.
(** f b * f (b+1) * ... (k factors) *)
Fixpoint rprod (k b : nat) (f : nat -> R) : R :=
  match k with O => r1 | S k' => rmul (f b) (rprod k' (S b) f) end.
(** <s| c * O_1 x ... x O_n |s'> *)
Definition term_elem (idops : list lop) (n : nat) (s s' : nat -> nat) (t : call) : R :=
  rmul (fst t) (rprod n 0 (fun i => elem (op_on idops (snd t) i) (s i) (s' i))).
Fixpoint rsum (l : list R) : R := match l with [] => r0 | x :: t => radd x (rsum t) end.

(** A term the generator accepts: at least one operator, sites pairwise different, each operator living on the
    physical index of its site (hence sites in range). *)
Definition valid_call (sites : list nat) (t : call) : Prop :=
  snd t <> [] /\ NoDup (map snd (snd t)) /\
  Forall (fun p => nth_error sites (snd p) = Some (lo_ix (fst p))) (snd t).

(** c * o with the overall sign moved into c so that the first non-zero element of o is not negative *)
Definition first_nonzero (o : lop) : R :=
  match find (fun x => negb (reqb x r0)) (concat (lo_dat o)) with Some x => x | None => r0 end.
Definition sign_free (c : R) (o : lop) : R * lop :=
  if isneg (first_nonzero o) then (ropp c, mkLop (lo_ix o) (map (map ropp) (lo_dat o))) else (c, o).
Definition same_single (t t' : call) : Prop :=
  match snd t, snd t' with
  | [(o, i)], [(o', i')] => i = i' /\ sign_free (fst t) o = sign_free (fst t') o'
  | _, _ => False
  end.
Definition single_on (i : nat) (t : call) : Prop := exists o, snd t = [(o, i)].

(** Call number [j] repeats what the site already has: it is a one-site term, there was an earlier one-site term
    on that site, and all earlier one-site terms on that site are equal to it. *)
Definition repeated (H : list call) (j : nat) : Prop :=
  exists t i, nth_error H j = Some t /\ single_on i t /\
    (exists j' t', j' < j /\ nth_error H j' = Some t' /\ single_on i t') /\
    (forall j' t', j' < j -> nth_error H j' = Some t' -> single_on i t' -> same_single t' t).
End Spec.
Arguments elem {R}. Arguments op_on {R}.
