(** Sums and inner products of MPS (one_dim_tn/mps/finite_mps/finite_mps_ops.h) and the class FiniteMPO
    (one_dim_tn/mpo/finite_mpo/finite_mpo.h, finite_mpo_utility.h, exp_finite_mpo.h).

    Tensor elements are in an arbitrary ring; quantum numbers are not modelled.  Expand puts the basis of the second tensor
    behind that of the first and FuseIndex numbers pairs row by row; the library orders by sectors, the same way on both sides
    of a bond.  A default constructed tensor is an empty slot: using it is undefined here. *)
From Coq Require Import List Arith Bool ZArith.
From Verif Require Import Base FiniteMps FmpsSpec.
Import ListNotations.

Section Model.
Variables (R : Type) (r0 r1 : R) (radd rmul : R -> R -> R) (conj : R -> R).
Infix "+r" := radd (at level 50, left associativity).
Infix "*r" := rmul (at level 40, left associativity).
Notation sumn := (sumn R r0 radd).
Notation ten := (ten R). Notation fmps := (fmps R).

(** ** MPS *)
(** Expand(a, b, axes, c) for axes {0}, {2} and {0, 2}: direct sum along the axes, the other legs must agree *)
Definition expand (x0 x2 : bool) (a b : ten) : res ten :=
  if negb ((d1 a =? d1 b) && (x0 || (d0 a =? d0 b)) && (x2 || (d2 a =? d2 b))) then Ub else
  Ok (mkTen (if x0 then d0 a + d0 b else d0 a) (d1 a) (if x2 then d2 a + d2 b else d2 a) (fun l s r =>
    match x0 && negb (l <? d0 a), x2 && negb (r <? d2 a) with
    | false, false => if x0 || x2 then el a l s r else el a l s r +r el b l s r
    | true, true => el b (l - d0 a) s (r - d2 a)
    | true, false => if x2 then r0 else el b (l - d0 a) s r
    | false, true => if x0 then r0 else el b l s (r - d2 a)
    end)).
(** the objects of a program; several names may stand for one object *)
Definition world : Type := list fmps.
(** Div(a) == Div(b): quantum numbers are not modelled *)
Variable same_div : ten -> ten -> bool.
(** DuoVector::alloc, duovector.h 193-200 (flags are not touched): an old element is deleted, a default tensor is made *)
Definition alloc (i : nat) (st : fmps) : res fmps := put R i None st.
(** FiniteMPSAdd, finite_mps_ops.h 32-52: objects [a], [b] and [c] *)
Definition mps_add (dbg : bool) (a b c : nat) (w : world) : res world :=
  let! ma := vget w a in let! mb := vget w b in let! mc := vget w c in
  let! _ := (if dbg then let! ta := deref R ma 0 in let! tb := deref R mb 0 in assert_ dbg (same_div ta tb) else Ok tt) in
  let! _ := assert_ dbg (length (tens ma) =? length (tens mb)) in
  let! _ := assert_ dbg (length (tens mb) =? length (tens mc)) in
  let N := length (tens ma) in
  for_loop 0 N (fun i w =>
    let! mc := vget w c in let! mc := alloc i mc in let! w := vset w c mc in
    let! ma := vget w a in let! ta := deref R ma i in
    let! mb := vget w b in let! tb := deref R mb i in
    let! t := (if i =? 0 then expand false true ta tb else if i =? N - 1 then expand true false ta tb else expand true true ta tb) in
    let! mc := vget w c in let! mc := assign R i (Some t) mc in vset w c mc) w.
(** FiniteMPSInnerProd, finite_mps_ops.h 62-78.  tmp has legs (bond of A, bond of B); its first index is that of A's left end *)
Definition inner_step (tmp : nat * nat * (nat -> nat -> R)) (ta tb : ten) : res (nat * nat * (nat -> nat -> R)) :=
  let '(na, nb, f) := tmp in
  if negb ((na =? d0 ta) && (nb =? d0 tb) && (d1 ta =? d1 tb)) then Ub else
  let tmp2 := fun b s r => sumn na (fun a => f a b *r el ta a s r) in
  Ok (d2 ta, d2 tb, fun r r' => sumn nb (fun b => sumn (d1 ta) (fun s => tmp2 b s r *r conj (el tb b s r')))).
Definition mps_inner (ma mb : fmps) : res R :=
  let! t0 := deref R ma 0 in
  let! tmp := for_loop 0 (length (tens ma)) (fun i tmp => let! ta := deref R ma i in let! tb := deref R mb i in inner_step tmp ta tb)
    (d0 t0, d0 t0, fun a b => if (a =? 0) && (b =? 0) then r1 else r0) in
  let '(na, nb, f) := tmp in if (0 <? na) && (0 <? nb) then Ok (f 0 0) else Ub.

(** ** FiniteMPO *)
(** local tensor, legs 0 (left), 1 (in), 2 (out), 3 (right) *)
Record ten4 : Type := mkTen4 { m0 : nat; m1 : nat; m2 : nat; m3 : nat; e4 : nat -> nat -> nat -> nat -> R }.
Record fmpo : Type := mkFmpo { mtens : list (option ten4); mtypes : list cano; mcenter : Z }.
(** FiniteMPO(size), FiniteMPO(const MPO &), finite_mpo.h 80-85 *)
Definition mpo_new (n : nat) : fmpo := mkFmpo (repeat None n) (repeat NONE n) (-1)%Z.
Definition mpo_of (ts : list (option ten4)) : fmpo := mkFmpo ts (repeat NONE (length ts)) (-1)%Z.
(** non-const operator[] and operator(), 109-113, 125-129 *)
Definition mtouch (i : nat) (st : fmpo) : res fmpo :=
  let! ty := vset (mtypes st) i NONE in let! _ := vget (mtens st) i in Ok (mkFmpo (mtens st) ty (-1)%Z).
Definition mderef (st : fmpo) (i : nat) : res ten4 := let! p := vget (mtens st) i in match p with Some t => Ok t | None => Ub end.
Definition mput (i : nat) (p : option ten4) (st : fmpo) : res fmpo := let! l := vset (mtens st) i p in Ok (mkFmpo l (mtypes st) (mcenter st)).

Definition expand4 (x0 x3 : bool) (a b : ten4) : res ten4 :=
  if negb ((m1 a =? m1 b) && (m2 a =? m2 b) && (x0 || (m0 a =? m0 b)) && (x3 || (m3 a =? m3 b))) then Ub else
  Ok (mkTen4 (if x0 then m0 a + m0 b else m0 a) (m1 a) (m2 a) (if x3 then m3 a + m3 b else m3 a) (fun l s s' r =>
    match x0 && negb (l <? m0 a), x3 && negb (r <? m3 a) with
    | false, false => if x0 || x3 then e4 a l s s' r else e4 a l s s' r +r e4 b l s s' r
    | true, true => e4 b (l - m0 a) s s' (r - m3 a)
    | true, false => if x3 then r0 else e4 b (l - m0 a) s s' r
    | false, true => if x0 then r0 else e4 b l s s' (r - m3 a)
    end)).
(** operator+=, finite_mpo.h 145-165; objects [a] (this) and [b] (rhs), possibly the same *)
Definition mpo_add (dbg : bool) (a b : nat) (w : list fmpo) : res (list fmpo) :=
  let! ma := vget w a in let! mb := vget w b in
  let N := length (mtens ma) in
  let! _ := assert_ dbg (length (mtens mb) =? N) in
  for_loop 0 N (fun i w =>
    let! ma := vget w a in let! ma := mtouch i ma in let! w := vset w a ma in
    let! p := vget (mtens ma) i in
    let! _ := assert_ dbg (match p with Some _ => true | None => false end) in
    let! ta := mderef ma i in let! mb := vget w b in let! tb := mderef mb i in
    let! t := (if i =? 0 then expand4 false true ta tb else if i =? N - 1 then expand4 true false ta tb else expand4 true true ta tb) in
    let! ma := mput i (Some t) ma in vset w a ma) w.

(** t *= s *)
Definition tscale (s : R) (t : ten4) : ten4 := mkTen4 (m0 t) (m1 t) (m2 t) (m3 t) (fun a p q b => s *r e4 t a p q b).
(** Scale, 257-265, and operator*= *)
Definition mpo_scale (s : R) (st : fmpo) : res fmpo :=
  let i := if negb (mcenter st =? -1)%Z then Z.to_nat (mcenter st) else 0 in
  if (mcenter st <? -1)%Z then Ub else
  let c := mcenter st in
  let! st := mtouch i st in let! t := mderef st i in let! st := mput i (Some (tscale s t)) st in
  Ok (mkFmpo (mtens st) (mtypes st) (if negb (c =? -1)%Z then c else (-1)%Z)).
(** Normalize, 267-277; Tensor::Normalize returns the norm and divides by it.  [norm] and [inv] are arbitrary functions *)
Variables (norm : ten4 -> R) (inv : R -> R).
Definition mpo_normalize (st : fmpo) : res (R * fmpo) :=
  let i := if negb (mcenter st =? -1)%Z then Z.to_nat (mcenter st) else 0 in
  if (mcenter st <? -1)%Z then Ub else
  let c := mcenter st in
  let! st := mtouch i st in let! t := mderef st i in let! st := mput i (Some (tscale (inv (norm t)) t)) st in
  Ok (norm t, mkFmpo (mtens st) (mtypes st) (if negb (c =? -1)%Z then c else (-1)%Z)).

(** files of a directory: tensors by site and the file "center" (an integer); a directory may be missing *)
Record mdir : Type := mkMdir { mfile : nat -> option ten4; cfile : option Z }.
(** Dump, 224-237: DumpTen dereferences; the directory is made if it is not there *)
Definition mpo_dump (st : fmpo) (d : option mdir) : res mdir :=
  let d := match d with Some d => d | None => mkMdir (fun _ => None) None end in
  let! f := for_loop 0 (length (mtens st)) (fun i f => let! t := mderef st i in Ok (fun j => if j =? i then Some t else f j)) (mfile d) in
  Ok (mkMdir f (Some (mcenter st))).
(** SetCenter_, 309-319; i < center_ compares as unsigned: a negative center other than -1 runs out of range *)
Definition set_center (st : fmpo) : res fmpo :=
  if (mcenter st =? -1)%Z then Ok st else if (mcenter st <? 0)%Z then Ub else
  let c := Z.to_nat (mcenter st) in
  let! ty := for_loop 0 c (fun i ty => vset ty i LEFT) (mtypes st) in
  let! ty := vset ty c NONE in
  let! ty := for_loop (c + 1) (length (mtens st) - (c + 1)) (fun i ty => vset ty i RIGHT) ty in
  Ok (mkFmpo (mtens st) ty (mcenter st)).
(** Load, 239-255; false and no effect without the directory.  A missing tensor file throws (ten_vec.h 61-75).  Reading from a
    center file that is not there leaves center_ as it was; one that holds no integer is not modelled *)
Definition mpo_load (d : option mdir) (st : fmpo) : res (bool * fmpo) :=
  match d with
  | None => Ok (false, st)
  | Some d =>
    let! st := for_loop 0 (length (mtens st)) (fun i st => match mfile d i with Some t => mput i (Some t) st | None => Abort end) st in
    let! st := set_center (mkFmpo (mtens st) (mtypes st) (match cfile d with Some c => c | None => mcenter st end)) in
    Ok (true, st)
  end.

(** GenerateIdentityMPO, finite_mpo_utility.h 91-114 (bosonic).  The element (0, j, j, 0) for j < dim of leg 1 *)
Definition id_ten (t : ten4) : ten4 := mkTen4 1 (m1 t) (m2 t) 1 (fun _ s s' _ => if (s =? s') && (s <? m1 t) then r1 else r0).
Definition mpo_identity (sample : fmpo) : res fmpo :=
  let! t0 := mderef sample 0 in
  if negb (m0 t0 =? 1) then Ub else
  for_loop 0 (length (mtens sample)) (fun i st =>
    let! t := mderef sample i in
    if m2 t <? m1 t then Ub else
    let! st := mtouch i st in mput i (Some (id_ten t)) st) (mpo_new (length (mtens sample))).
(** MpoProduct without compression, finite_mpo_utility.h 126-155.  Contract {{1}, {2}}, then legs (left, mpo2's in, mpo1's out, right) *)
Definition prod_ten (t1 t2 : ten4) : res ten4 :=
  if negb (m1 t1 =? m2 t2) then Ub else
  Ok (mkTen4 (m0 t1 * m0 t2) (m1 t2) (m2 t1) (m3 t1 * m3 t2) (fun l s s' r =>
    sumn (m1 t1) (fun k => e4 t1 (l / m0 t2) k s' (r / m3 t2) *r e4 t2 (l mod m0 t2) s k (r mod m3 t2)))).
Definition mpo_product (p1 p2 out : fmpo) : res fmpo :=
  let N := length (mtens p1) in
  let! out := for_loop 0 N (fun i out => let! out := mtouch i out in mput i None out) out in
  for_loop 0 N (fun i out =>
    let! t1 := mderef p1 i in let! t2 := mderef p2 i in let! t := prod_ten t1 t2 in
    let! out := mtouch i out in mput i (Some t) out) out.
(** Trace, finite_mpo.h 444-465: the accesses are not const, so all flags are reset *)
Definition mpo_trace (st : fmpo) : res (R * fmpo) :=
  let! st := mtouch 0 st in let! t0 := mderef st 0 in
  let! x := for_loop 0 (length (mtens st)) (fun i (x : fmpo * (nat * (nat -> R))) =>
    let '(st, (n, v)) := x in
    let! st := mtouch i st in let! t := mderef st i in
    if negb ((n =? m0 t) && (m1 t =? m2 t)) then Ub else
    Ok (st, (m3 t, fun r => sumn (m1 t) (fun s => sumn (m2 t) (fun s' => sumn n (fun l => v l *r e4 t l s s' r) *r (if s =? s' then r1 else r0))))))
    (st, (m0 t0, fun l => if l =? 0 then r1 else r0)) in
  let '(st, (n, v)) := x in if 0 <? n then Ok (v 0, st) else Ub.
(** GetMaxBondDim, 281-287; size 0 wraps around *)
Definition max_bond (st : fmpo) : res nat :=
  if length (mtens st) =? 0 then Ub else
  for_loop 0 (length (mtens st) - 1) (fun i D => let! t := mderef st i in Ok (Nat.max D (m3 t))) 1.

(** ** ExpFiniteMPO, exp_finite_mpo.h 44-126.  Truncate and the variational product are arbitrary functions; [stop t t0] is
    |t / t0| < tolerance and [positive] the assertion on even orders; printing and the dumped powers are left out.  [inv_nat n] is 1.0 / n *)
Variables (truncate : nat -> fmpo -> res fmpo) (vproduct : nat -> fmpo -> fmpo -> res fmpo) (centralize0 : fmpo -> res fmpo).
Variables (stop : R -> R -> bool) (positive : R -> bool) (inv_nat : nat -> R).
Definition add2 (dbg : bool) (a b : fmpo) : res fmpo := let! w := mpo_add dbg 0 1 [a; b] in vget w 0.
(** one order: (density, term) -> (density, term, break) *)
Definition taylor_step (dbg : bool) (DH Dmax : nat) (mth : fmpo) (t0 : R) (n : nat) (x : fmpo * fmpo) : res (fmpo * fmpo * bool) :=
  let (rho, term) := x in
  let! term := (if 1 <? n then
      let! D := max_bond term in
      let! p := (if DH * D <=? Dmax then let! p := mpo_product term mth (mpo_new (length (mtens mth))) in let! Dp := max_bond p in truncate Dp p
                 else vproduct n term mth) in
      mpo_scale (inv_nat n) p
    else Ok term) in
  let! rho := add2 dbg rho term in
  let! (t, term) := mpo_trace term in
  let! D := max_bond rho in
  let! rho := (if Dmax <? D then truncate Dmax rho else Ok rho) in
  if Nat.even n then let! _ := assert_ dbg (positive t) in Ok (rho, term, stop t t0) else Ok (rho, term, false).
Fixpoint taylor_loop (dbg : bool) (DH Dmax : nat) (mth : fmpo) (t0 : R) (n fuel : nat) (x : fmpo * fmpo) : res (fmpo * fmpo) :=
  match fuel with
  | O => Ok x
  | S fuel => let! (x, brk) := taylor_step dbg DH Dmax mth t0 n x in if brk then Ok x else taylor_loop dbg DH Dmax mth t0 (S n) fuel x
  end.
Definition exp_mpo (dbg : bool) (ham : fmpo) (mtau : R) (max_order Dmax : nat) : res (R * fmpo) :=
  let! DH := max_bond ham in
  let! mth := mpo_scale mtau ham in
  let! rho := mpo_identity ham in
  let! (t0, rho) := mpo_trace rho in
  let! x := taylor_loop dbg DH Dmax mth t0 1 (max_order - 1) (rho, mth) in
  let! rho := centralize0 (fst x) in
  let! rho := mtouch 0 rho in let! t := mderef rho 0 in
  let! rho := mput 0 (Some (tscale (inv (norm t)) t)) rho in Ok (norm t, rho).
End Model.
Arguments mkTen4 {R}. Arguments m0 {R}. Arguments m1 {R}. Arguments m2 {R}. Arguments m3 {R}. Arguments e4 {R}.
Arguments mkFmpo {R}. Arguments mtens {R}. Arguments mtypes {R}. Arguments mcenter {R}. Arguments mkMdir {R}. Arguments mfile {R}. Arguments cfile {R}.
