(** IsQNCovered: algorithm/vmps/two_site_update_noise_finite_vmps_impl.h 724-765. *)
From Coq Require Import List Arith Bool.
From Verif Require Import Base.
Import ListNotations.

Section Cover.
Variable Q : Type.                    (* quantum number sectors *)
Variable hash : Q -> nat.             (* qnsector.GetQn().Hash() *)
Variable sort : list nat -> list nat. (* std::sort *)
(** std::vector::back(), undefined on an empty vector *)
Definition back (l : list nat) : res nat := match rev l with [] => Ub | x :: _ => Ok x end.
(** the loop 752-763; the lists are what is left from iter1 and iter2 on, *iter1 at the end is undefined *)
Fixpoint scan (a b : list nat) : res bool :=
  match b with
  | [] => Ok true
  | y :: b' =>
    match a with
    | [] => Ub
    | x :: a' => if x <? y then scan a' b else if x =? y then scan a' b' else Ok false
    end
  end.
Definition is_covered (s1 s2 : list Q) : res bool :=
  if length s1 <? length s2 then Ok false
  else
    let h1 := sort (map hash s1) in
    let h2 := sort (map hash s2) in
    let! b1 := back h1 in
    let! b2 := back h2 in
    if b1 <? b2 then Ok false else scan h1 h2.
End Cover.
