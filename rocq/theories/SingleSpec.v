(** Specification of single-site sweeps on a chain in memory, with environments rebuilt from the tensors at each step. *)
From Coq Require Import List Arith Bool.
From Verif Require Import Base Disk SweepSpec.
Import ListNotations.

Section Spec.
Variables T E St : Type.
Variable triv : side -> E.
Variable grow : side -> nat -> E -> T -> E.
Variable solve1 : bool -> nat -> E -> T -> E -> T -> St -> T * T * St.
Variable N : nat.
(** one update: optimise site i, then hand the center over to the next site in the direction of motion *)
Definition opt1 (b : bool * nat) (s : (nat -> T) * St) : (nat -> T) * St :=
  let (rt, i) := b in let (ts, s) := s in
  let nn := if rt then i + 1 else i - 1 in
  let '(x, y, s') := solve1 rt i (left_env T E triv grow ts i) (ts i) (right_env T E triv grow N ts (N - 1 - i)) (ts nn) s in
  (fset (fset ts i x) nn y, s').
Definition opts1 (bs : list (bool * nat)) (s : (nat -> T) * St) : (nat -> T) * St := fold_left (fun s b => opt1 b s) bs s.
(** sites of a sweep: to the right up to the site before the last, then back from the last one to site 1 *)
Definition sites1 : list (bool * nat) := map (fun i => (true, i)) (seq 0 (N - 1)) ++ map (fun i => (false, i)) (rev (seq 1 (N - 1))).
Variable noise : nat -> option St.       (* the preset of sweep k, if there is one *)
Variable carry : St -> St.
Definition begin1 (k : nat) (s : option St) : option St := match noise k with Some x => Some x | None => option_map carry s end.
Fixpoint sweeps1 (n k0 : nat) (s : (nat -> T) * option St) : (nat -> T) * option St :=
  match n with
  | O => s
  | S m =>
    match begin1 k0 (snd s) with
    | Some x => let r := opts1 sites1 (fst s, x) in sweeps1 m (S k0) (fst r, Some (snd r))
    | None => (fst s, None)
    end
  end.
End Spec.
