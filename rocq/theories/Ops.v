(** Local operators and model terms: model_relevant/operators and model_relevant/sites.

    Tensor({col, row}) = <row|O|col>: the first index of a local operator is contracted with the state it acts on.
    Elements lie in any ring with a half and an imaginary unit; all sites of a chain are equal (physical index 0).
    Not modelled: the reference members cupccdna, cdnccupa, Uterm (they are sp, sm, nupndn of the original object). *)
From Coq Require Import List Arith Bool ZArith.
From Verif Require Import Base MpoGen MpoSpec MpoRunSpec.
Import ListNotations.
Local Open Scope nat_scope.

(** the supported kinds of conserved quantum numbers *)
Inductive qnt : Type := U1U1 | TrivialRep | U1.
(** sites/fermion/hubbard_sites.h 30-69: numbering of the basis *)
Record hsite : Type := mkHS { h_dbl : nat; h_up : nat; h_dn : nat; h_emp : nat }.
Definition hub_site (q : qnt) : hsite := match q with U1U1 => mkHS 0 1 2 3 | TrivialRep => mkHS 0 1 2 3 | U1 => mkHS 0 2 3 1 end.
(** quantum numbers of the basis, from the sectors of phys_bond_out; a missing second charge is 0 *)
Definition hub_charge (q : qnt) (a : nat) : Z * Z :=
  match q with
  | U1U1 => nth a [(2, 0); (1, 1); (1, -1); (0, 0)]%Z (0, 0)%Z
  | TrivialRep => (0, 0)%Z
  | U1 => nth a [(0, 0); (0, 0); (1, 0); (-1, 0)]%Z (0, 0)%Z
  end.
(** sites/fermion/tJ_sites.h 29-63 *)
Record tsite : Type := mkTS { t_up : nat; t_dn : nat; t_emp : nat }.
Definition tj_site (q : qnt) : tsite := mkTS 0 1 2.
Definition tj_charge (q : qnt) (a : nat) : Z * Z :=
  match q with U1U1 => nth a [(1, 1); (1, -1); (0, 0)]%Z (0, 0)%Z | TrivialRep => (0, 0)%Z | U1 => nth a [(1, 0); (-1, 0); (0, 0)]%Z (0, 0)%Z end.
(** sites/spin/spin_one_half_sites.h 29-47: U1 and TrivialRep *)
Definition spin_charge (q : qnt) (a : nat) : Z * Z := match q with TrivialRep => (0, 0)%Z | _ => nth a [(1, 0); (-1, 0)]%Z (0, 0)%Z end.

Section Ops.
Variables (R : Type) (r0 r1 half im : R) (rmul : R -> R -> R) (ropp conj : R -> R) (reqb : R -> R -> bool).
Notation lop := (lop R). Notation acall := (acall R).
(** a tensor written element by element: T({col, row}) = v *)
Definition tab : Type := list (nat * nat * R).
Fixpoint lookup (t : tab) (a b : nat) : R := match t with [] => r0 | (c, r, v) :: t' => if (c =? a) && (r =? b) then v else lookup t' a b end.
Definition ten (d : nat) (t : tab) : lop := mkLop 0 (map (fun a => map (lookup t a) (seq 0 d)) (seq 0 d)).
(** divergence of an operator: charges of its first non-zero element *)
Definition zsub2 (a b : Z * Z) : Z * Z := (fst a - fst b, snd a - snd b)%Z.
Fixpoint dv_row (charge : nat -> Z * Z) (a : nat) (r : list R) (b : nat) : option (Z * Z) :=
  match r with [] => None | x :: t => if reqb x r0 then dv_row charge a t (S b) else Some (zsub2 (charge b) (charge a)) end.
Fixpoint dv_rows (charge : nat -> Z * Z) (d : list (list R)) (a : nat) : Z * Z :=
  match d with [] => (0, 0)%Z | r :: t => match dv_row charge a r 0 with Some q => q | None => dv_rows charge t (S a) end end.
Definition div_of (charge : nat -> Z * Z) (o : lop) : Z * Z := dv_rows charge (lo_dat o) 0.

Notation m1 := (ropp r1).
(** fermion/hubbard_operators.h 54-118 *)
Section Hubbard.
Variable h : hsite.
Notation d := (h_dbl h). Notation u := (h_up h). Notation n := (h_dn h). Notation e := (h_emp h).
Definition h_sz : lop := ten 4 [(u, u, half); (n, n, ropp half)].
Definition h_sp : lop := ten 4 [(n, u, r1)].
Definition h_sm : lop := ten 4 [(u, n, r1)].
Definition h_id : lop := ten 4 [(d, d, r1); (u, u, r1); (n, n, r1); (e, e, r1)].
Definition h_sx : lop := ten 4 [(n, u, half); (u, n, half)].
Definition h_sy : lop := ten 4 [(n, u, ropp (rmul im half)); (u, n, rmul im half)].
Definition h_f : lop := ten 4 [(d, d, r1); (u, u, m1); (n, n, m1); (e, e, r1)].
Definition h_bupc : lop := ten 4 [(n, d, r1); (e, u, r1)].
Definition h_bdnc : lop := ten 4 [(u, d, r1); (e, n, r1)].
Definition h_bupa : lop := ten 4 [(d, n, r1); (u, e, r1)].
Definition h_bdna : lop := ten 4 [(d, u, r1); (n, e, r1)].
Definition h_bupcF : lop := ten 4 [(n, d, m1); (e, u, r1)].
Definition h_Fbdnc : lop := ten 4 [(u, d, r1); (e, n, m1)].
Definition h_bupaF : lop := ten 4 [(d, n, r1); (u, e, m1)].
Definition h_Fbdna : lop := ten 4 [(d, u, m1); (n, e, r1)].
Definition h_cupccdnc : lop := ten 4 [(e, d, r1)].
Definition h_cdnacupa : lop := ten 4 [(d, e, r1)].
Definition h_nupndn : lop := ten 4 [(d, d, r1)].
Variables (c2 c4 : R).   (* the numbers 2 and 4 *)
Definition h_nf : lop := ten 4 [(d, d, c2); (u, u, r1); (n, n, r1)].
Definition h_nfsquare : lop := ten 4 [(d, d, c4); (u, u, r1); (n, n, r1)].
Definition h_nup : lop := ten 4 [(d, d, r1); (u, u, r1)].
Definition h_ndn : lop := ten 4 [(d, d, r1); (n, n, r1)].
(** AddHubbardHoppingTerms, 184-194; i = j is not checked *)
Definition hub_hop (t : R) (i j : nat) : list acall :=
  let s1 := Nat.min i j in let s2 := Nat.max i j in
  [ATwo R (ropp t) h_bupcF s1 (Some h_bupa) s2 (Some h_f) [];
   ATwo R t h_bupaF s1 (Some h_bupc) s2 (Some h_f) [];
   ATwo R (ropp t) h_bdnc s1 (Some h_Fbdna) s2 (Some h_f) [];
   ATwo R t h_bdna s1 (Some h_Fbdnc) s2 (Some h_f) []].
(** a user's loop over bonds *)
Definition hub_hops (l : list (R * nat * nat)) : list acall := flat_map (fun x : R * nat * nat => let '(t, i, j) := x in hub_hop t i j) l.
End Hubbard.
(** fermion/tJ_operators.h 41-73 *)
Section TJ.
Variable h : tsite.
Notation u := (t_up h). Notation n := (t_dn h). Notation e := (t_emp h).
Definition t_sz : lop := ten 3 [(u, u, half); (n, n, ropp half)].
Definition t_sp : lop := ten 3 [(n, u, r1)].
Definition t_sm : lop := ten 3 [(u, n, r1)].
Definition t_id : lop := ten 3 [(u, u, r1); (n, n, r1); (e, e, r1)].
Definition t_f : lop := ten 3 [(u, u, m1); (n, n, m1); (e, e, r1)].
Definition t_bupc : lop := ten 3 [(e, u, r1)].
Definition t_bdnc : lop := ten 3 [(e, n, r1)].
Definition t_bupa : lop := ten 3 [(u, e, r1)].
Definition t_bdna : lop := ten 3 [(n, e, r1)].
Definition t_nf : lop := ten 3 [(u, u, r1); (n, n, r1)].
Definition t_nup : lop := ten 3 [(u, u, r1)].
Definition t_ndn : lop := ten 3 [(n, n, r1)].
Definition t_bdnc_multi_bupa : lop := ten 3 [(n, u, r1)].
Definition t_bupc_multi_bdna : lop := ten 3 [(u, n, r1)].
(** AddTJHoppingTerms, 109-128: throws if i = j *)
Definition tj_hop (t : R) (i j : nat) : res (list acall) :=
  let s1 := Nat.min i j in let s2 := Nat.max i j in
  let! t0 := (if i <? j then Ok t else if j <? i then Ok (conj t) else Abort) in
  Ok [AInst R (ropp t0) [t_bupc; t_bupa] [s1; s2] [t_f] [];
      AInst R (ropp t0) [t_bdnc; t_bdna] [s1; s2] [t_f] [];
      AInst R (ropp (conj t0)) [t_bupa; t_bupc] [s1; s2] [t_f] [];
      AInst R (ropp (conj t0)) [t_bdna; t_bdnc] [s1; s2] [t_f] []].
Fixpoint tj_hops (l : list (R * nat * nat)) : res (list acall) :=
  match l with [] => Ok [] | (t, i, j) :: l' => let! a := tj_hop t i j in let! b := tj_hops l' in Ok (a ++ b) end.
End TJ.
(** spin/spin_one_half_operators.h 34-52; sites/spin/spin_one_half_sites.h: up 0, down 1 *)
Definition s_sz : lop := ten 2 [(0, 0, half); (1, 1, ropp half)].
Definition s_sp : lop := ten 2 [(1, 0, r1)].
Definition s_sm : lop := ten 2 [(0, 1, r1)].
Definition s_id : lop := ten 2 [(0, 0, r1); (1, 1, r1)].
Definition s_sx : lop := ten 2 [(1, 0, half); (0, 1, half)].
Definition s_sy : lop := ten 2 [(1, 0, ropp (rmul im half)); (0, 1, rmul im half)].
(** AddHeisenbergCoupling, 88-98; the operators are those of any of the three structures *)
Definition heisenberg (dbg : bool) (sz sp sm : lop) (J : R) (i j : nat) : res (list acall) :=
  let! _ := assert_ dbg (negb (i =? j)) in
  let s1 := Nat.min i j in let s2 := Nat.max i j in
  Ok [ATerm R J [sz; sz] [s1; s2]; ATerm R (rmul J half) [sp; sm] [s1; s2]; ATerm R (rmul J half) [sm; sp] [s1; s2]].
Fixpoint heisenbergs (sz sp sm : lop) (dbg : bool) (l : list (R * nat * nat)) : res (list acall) :=
  match l with [] => Ok [] | (J, i, j) :: l' => let! a := heisenberg dbg sz sp sm J i j in let! b := heisenbergs sz sp sm dbg l' in Ok (a ++ b) end.
End Ops.
