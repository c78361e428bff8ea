(** Specification of the preparation and of noised sweeps on a chain in memory. *)
From Coq Require Import List Arith Bool.
From Verif Require Import Base Disk SweepSpec.
Import ListNotations.

Section Spec.
Variables T E St : Type.
Variable triv : side -> E.
Variable grow : side -> nat -> E -> T -> E.
Variables (canoL canoR : T -> T -> T * T).
Variables (bigL smallL bigR smallR : T -> bool) (combL combR : T -> T -> T * T).
Variable solve3 : bool -> nat -> E -> T -> T -> E -> T -> St -> T * T * T * St.
Variable N : nat.
Definition set2 (ts : nat -> T) (i : nat) (p : T * T) : nat -> T := fset (fset ts i (fst p)) (i + 1) (snd p).
(** from the left end: canonicalize, enlarge the bond when it is smaller than it could be, stop at the first large one *)
Fixpoint prep_left (n i lb : nat) (ts : nat -> T) : nat * (nat -> T) :=
  match n with
  | O => (lb, ts)
  | S m =>
    let ts := set2 ts i (canoL (ts i) (ts (i + 1))) in
    if bigL (ts i) then (i, ts)
    else prep_left m (S i) (if m =? 0 then i else lb) (if smallL (ts i) then set2 ts i (combL (ts i) (ts (i + 1))) else ts)
  end.
Fixpoint prep_right (n i rb : nat) (ts : nat -> T) : nat * (nat -> T) :=
  match n with
  | O => (rb, ts)
  | S m =>
    let ts := set2 ts (i - 1) (canoR (ts (i - 1)) (ts i)) in
    if bigR (ts i) then (i, ts)
    else prep_right m (i - 1) (if m =? 0 then i else rb) (if smallR (ts i) then set2 ts (i - 1) (combR (ts (i - 1)) (ts i)) else ts)
  end.
(** the last site that the left part may reach, the first one that the right part may reach *)
Definition half (n : nat) : nat := if Nat.even n then n / 2 - 1 else n / 2.
Definition prep (ts : nat -> T) : nat * nat * (nat -> T) :=
  let (lb, ts) := prep_left (half N) 0 0 ts in
  let (rb, ts) := prep_right (N - 1 - N / 2) (N - 1) 0 ts in (lb, rb, ts).

(** one noised update: the third site is the next one in the direction of motion *)
Definition opt3 (b : bool * nat) (s : (nat -> T) * St) : (nat -> T) * St :=
  let (rt, l) := b in let (ts, s) := s in
  let nn := if rt then l + 2 else l - 1 in
  let '(x, y, z, s') := solve3 rt l (left_env T E triv grow ts l) (ts l) (ts (l + 1)) (right_env T E triv grow N ts (N - (l + 2))) (ts nn) s in
  (fset (fset (fset ts nn z) l x) (l + 1) y, s').
Definition opts3 (bs : list (bool * nat)) (s : (nat -> T) * St) : (nat -> T) * St := fold_left (fun s b => opt3 b s) bs s.
Variable preset : nat -> option St.
Variable carry : St -> St.
(** sweeps number k0, k0+1, ... *)
Fixpoint sweeps3 (lb rb n k0 : nat) (s : (nat -> T) * option St) : (nat -> T) * option St :=
  match n with
  | O => s
  | S m =>
    match (match preset k0 with Some x => Some x | None => option_map carry (snd s) end) with
    | Some x => let r := opts3 (bonds lb rb) (fst s, x) in sweeps3 lb rb m (S k0) (fst r, Some (snd r))
    | None => (fst s, None)     (* no noise value was ever given: not specified *)
    end
  end.
End Spec.
