(** What measurements should return: expectation values of products of local operators *)
From Coq Require Import List Arith Bool.
From Verif Require Import Base FiniteMps FmpsSpec EffHamSpec FinMpoSpec Measure.
Import ListNotations.

Section Spec.
Variables (R : Type) (r0 r1 : R) (radd rmul : R -> R -> R) (conj : R -> R).
Infix "*r" := rmul (at level 40, left associativity).
Notation lsum := (lsum R r0 radd). Notation ten := (ten R). Notation amp := (amp R r0 r1 radd rmul).

(** <c'| O_0 x O_1 x ... |c> *)
Fixpoint prod_elem (os : list (lop R)) (c c' : list nat) : R :=
  match os, c, c' with [], [], [] => r1 | o :: os, s :: c, s' :: c' => oe o s s' *r prod_elem os c c' | _, _, _ => r0 end.
(** <A| O_0 x O_1 x ... |A> with one operator for every site *)
Definition expect (A : list ten) (os : list (lop R)) : R :=
  let ds := map d1 A in lsum (configs ds) (fun c => lsum (configs ds) (fun c' => amp A c *r prod_elem os c c' *r conj (amp A c'))).

(** identity operator of a site *)
Definition is_id (d : nat) (o : lop R) : Prop := odim o = d /\ forall s s', s < d -> s' < d -> oe o s s' = if s =? s' then r1 else r0.
Definition identities (A : list ten) (ids : list (lop R)) : Prop := Forall2 (fun t o => is_id (d1 t) o) A ids.
(** a state stored with its center at site 0 *)
Definition stored_at_0 (disk : nat -> option ten) (A : list ten) : Prop :=
  fit R 1 A 1 /\ Forall (right_canonical R r0 r1 radd rmul conj) (tl A) /\ forall i t, nth_error A i = Some t -> disk i = Some t.
(** nothing in memory *)
Definition no_tensors (st : fmps R) (n : nat) : Prop := tens st = repeat None n /\ length (types st) = n.

(** the operators of an event: physical ones on their sites, insertion strings behind them, identity elsewhere *)
Definition placed (ids : list (lop R)) (sites : list nat) (phys : list (lop R)) (insts : list (list (lop R))) (os : list (lop R)) : Prop :=
  length os = length ids /\
  (forall i s p, nth_error sites i = Some s -> nth_error phys i = Some p -> nth_error os s = Some p) /\
  (forall i s l k o, nth_error sites i = Some s -> nth_error insts i = Some l -> nth_error l k = Some o -> nth_error os (s + 1 + k) = Some o) /\
  (forall j, (forall i s, nth_error sites i = Some s -> j <> s) ->
    (forall i s l k, nth_error sites i = Some s -> nth_error insts i = Some l -> k < length l -> j <> s + 1 + k) -> nth_error os j = nth_error ids j).
(** strings fill the gaps between the sites *)
Fixpoint gaps_filled (sites : list nat) (insts : list (list (lop R))) : Prop :=
  match sites, insts with
  | s :: (s' :: _) as r, l :: insts => s' = s + 1 + length l /\ gaps_filled r insts
  | [_], ([] | [_]) => True
  | _, _ => False
  end.
(** last site reached by the operators *)
Fixpoint last_site (sites : list nat) (insts : list (list (lop R))) : nat :=
  match sites, insts with
  | s :: (_ :: _) as r, _ :: insts => last_site r insts
  | [s], [l] => s + length l
  | s :: _, _ => s
  | [], _ => 0
  end.
(** the operators act on the spaces of their sites *)
Definition suited (A : list ten) (os : list (lop R)) : Prop := Forall2 (fun t o => odim o = d1 t) A os.
(** a well-formed event, and the operators [os] (one per site) it stands for *)
Definition event (A : list ten) (ids : list (lop R)) (phys : list (lop R)) (insts : list (list (lop R))) (sites : list nat) (os : list (lop R)) : Prop :=
  2 <= length sites /\ length phys = length sites /\ gaps_filled sites insts /\ last_site sites insts < length A /\
  placed ids sites phys insts os /\ suited A os.
(** the same insertion operator on every site of a gap *)
Fixpoint gap_strings (sites : list nat) (inst : list (lop R)) : list (list (lop R)) :=
  match sites, inst with s :: (s' :: _) as r, o :: inst => repeat o (s' - s - 1) :: gap_strings r inst | _, _ => [] end.
(** the string between two sites: one operator, or the identities *)
Definition string (ids : list (lop R)) (inst : option (lop R)) (s s' : nat) : list (lop R) :=
  match inst with Some o => repeat o (s' - s - 1) | None => firstn (s' - s - 1) (skipn (s + 1) ids) end.
Fixpoint ascending (l : list nat) : Prop := match l with a :: (b :: _) as l' => a < b /\ ascending l' | _ => True end.
Fixpoint nondecreasing (l : list nat) : Prop := match l with a :: (b :: _) as l' => a <= b /\ nondecreasing l' | _ => True end.
(** the operator acts on every site *)
Definition fits_all (A : list ten) (o : lop R) : Prop := forall t, In t A -> odim o = d1 t.
(** site and expectation value of an on-site operator at the listed sites *)
Definition at_sites (A : list ten) (ids : list (lop R)) (sites : list nat) (o : lop R) : list (list nat * R) := map (fun s => ([s], expect A (upd ids s o))) sites.
(** behind the second site of the last target pair, but not behind that of some other pair *)
Definition left_over (targets : list (nat * nat)) (i : nat) : Prop := exists a b c d, nth_error targets (length targets - 1) = Some (a, b) /\ In (c, d) targets /\ b < i <= d.
End Spec.
