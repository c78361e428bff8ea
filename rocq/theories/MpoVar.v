(** The variational product of two FiniteMPO: one_dim_tn/mpo/finite_mpo/finite_mpo_utility.h 157-515, and FiniteMPO::Square, SquareAndNormlize, finite_mpo.h 183-211,
    on top of MpoCano.v, over complex numbers.  Quantum numbers, printing and the entanglement entropy that is printed are left out. *)
From Coq Require Import List Arith Bool ZArith Reals.
From Verif Require Import Base CoefOpAlg Numeric FiniteMps FmpsSpec FinMpo Cx GVec TruncMps Legs MpoCano.
Import ListNotations.
Local Open Scope nat_scope.

Notation cg := (gten cx). Notation cmkG := (mkG cx).
Notation ccontract := (gcontract cx c0 cadd cmul).
(** a tensor of the chain as a tensor with four legs *)
Definition g4 (t : c4) : cg := cmkG [m0 t; m1 t; m2 t; m3 t] (fun x => e4 t (nth 0 x 0) (nth 1 x 0) (nth 2 x 0) (nth 3 x 0)).
(** Contract(&s, &vt, {{1}, {0}}); Contract(&u, &s, {{3}, {0}}); s is diagonal *)
Definition contract_s4 (s : list real) (t : c4) : res c4 :=
  if length s =? m0 t then Ok (mkTen4 (length s) (m1 t) (m2 t) (m3 t) (fun a p q b => cmul (cre (nth a s 0%R)) (e4 t a p q b))) else Ub.
Definition contract_4s (t : c4) (s : list real) : res c4 :=
  if m3 t =? length s then Ok (mkTen4 (m0 t) (m1 t) (m2 t) (length s) (fun a p q b => cmul (e4 t a p q b) (cre (nth b s 0%R)))) else Ub.

(** UpdateLenv, 502-515; UpdateRenv, 466-483 *)
Definition vlenv (le : cg) (o t1 t2 : c4) : res cg :=
  let! od := gtrans cx [0; 2; 1; 3] (gdag cx cconj (g4 o)) in
  let! x := ccontract [0] [0] od le in
  let! x := ccontract [0; 3] [2; 0] x (g4 t1) in
  ccontract [2; 0; 3] [0; 1; 2] x (g4 t2).
Definition vrenv (re : cg) (o t1 t2 : c4) : res cg :=
  let! od := gtrans cx [0; 2; 1; 3] (gdag cx cconj (g4 o)) in
  let! x := ccontract [3] [0] od re in
  let! x := ccontract [1; 3] [2; 3] x (g4 t1) in
  ccontract [1; 4; 2] [1; 2; 3] x (g4 t2).
(** The tensor that MPOProductVariationalSingleStep decomposes, 360-374 *)
Definition two_sites (le re : cg) (a1 a2 b1 b2 : c4) : res cg :=
  let! x := ccontract [2] [0] le (g4 b1) in
  let! l := ccontract [1; 3] [0; 1] x (g4 a1) in
  let! x := ccontract [3] [2] (g4 b2) re in
  let! r := ccontract [2; 4] [1; 3] x (g4 a2) in
  let! x := ccontract [2; 4] [0; 3] l r in
  gtrans cx [0; 1; 2; 3; 5; 4] x.
(** the environment at the end of a chain, 440-442 and 455-459 *)
Definition vtriv (a b c : nat) : cg := cmkG [a; b; c] (fun x => match x with [0; 0; 0] => c1 | _ => c0 end).

(** the output, the files "l" and "r" by length, what was printed: (truncation error, bond dimension) of every step, norm of every sweep *)
Record vstate : Type := mkV { vout : cmpo; vl : nat -> option cg; vr : nat -> option cg; vlog : list (real * nat); vnorms : list real }.
Definition fset (f : nat -> option cg) (i : nat) (x : option cg) : nat -> option cg := fun j => if j =? i then x else f j.
Definition fread (f : nat -> option cg) (i : nat) : res cg := match f i with Some x => Ok x | None => Ub end.

Section Model.
Variable qr : c4 -> c4 * cmat.
Variable svd : c4 -> cmat * list real * c4.
(** SVD(ten, 3, ..., trunc_err, Dmin, Dmax) of a tensor with six legs -> (u, s, vt, actual_trunc_err) *)
Variable svd6 : real -> nat -> nat -> cg -> c4 * list real * c4 * real.
Variables (terr : real) (Dmin Dmax : nat).

(** MPOProductVariationalSingleStep, 346-411; [rt] is dir == 'r' *)
Definition vsingle (rt : bool) (le re : cg) (a1 a2 b1 b2 : c4) : res (c4 * c4 * (real * nat)) :=
  let! g := two_sites le re a1 a2 b1 b2 in
  let '(u, s, vt, e) := svd6 terr Dmin Dmax g in
  if rt then let! q := contract_s4 s vt in Ok (u, q, (e, length s))
  else let! p := contract_4s u s in Ok (p, vt, (e, length s)).
(** the call, with output_mpo[lsite], output_mpo[rsite] as targets; then one of the two is read again for the environment *)
Definition vupdate (rt : bool) (i : nat) (le re : cg) (p1 p2 out : cmpo) : res (cmpo * (real * nat)) :=
  let! a1 := mderef cx p1 i in let! a2 := mderef cx p1 (i + 1) in
  let! b1 := mderef cx p2 i in let! b2 := mderef cx p2 (i + 1) in
  let! out := mtouch cx i out in let! _ := mderef cx out i in
  let! out := mtouch cx (i + 1) out in let! _ := mderef cx out (i + 1) in
  let! x := vsingle rt le re a1 a2 b1 b2 in
  let '(l, r, o) := x in
  let! out := mput cx i (Some l) out in
  let! out := mput cx (i + 1) (Some r) out in
  let! out := mtouch cx (if rt then i else i + 1) out in
  Ok (out, o).
(** body of the loop to the right, 242-270 *)
Definition vright (p1 p2 : cmpo) (i : nat) (x : cg * vstate) : res (cg * vstate) :=
  let (le, v) := x in
  let k := length (mtens p1) - (i + 1) - 1 in
  let! re := fread (vr v) k in
  let! y := vupdate true i le re p1 p2 (vout v) in
  let (out, o) := y in
  let! t := mderef cx out i in let! a := mderef cx p1 i in let! b := mderef cx p2 i in
  let! le := vlenv le t a b in
  Ok (le, mkV out (fset (vl v) (i + 1) (Some le)) (fset (vr v) k None) (vlog v ++ [o]) (vnorms v)).
(** body of the loop to the left, 275-304 *)
Definition vleft (p1 p2 : cmpo) (i : nat) (x : cg * vstate) : res (cg * vstate) :=
  let (re, v) := x in
  let! le := fread (vl v) i in
  let! y := vupdate false i le re p1 p2 (vout v) in
  let (out, o) := y in
  let! t := mderef cx out (i + 1) in let! a := mderef cx p1 (i + 1) in let! b := mderef cx p2 (i + 1) in
  let! re := vrenv re t a b in
  Ok (re, mkV out (fset (vl v) i None) (fset (vr v) (length (mtens p1) - i - 1) (Some re)) (vlog v ++ [o]) (vnorms v)).
(** one sweep, 239-310: ends with output_mpo[1].Get2Norm() *)
Definition vsweep (p1 p2 : cmpo) (v : vstate) : res (real * vstate) :=
  let N := length (mtens p1) in
  let! le := fread (vl v) 0 in
  let! x := for_loop 0 (N - 2) (vright p1 p2) (le, v) in
  let! re := fread (vr (snd x)) 0 in
  let! x := for_each (rev (seq 1 (N - 2))) (vleft p1 p2) (re, snd x) in
  let v := snd x in
  let! out := mtouch cx 1 (vout v) in
  let! t := mderef cx out 1 in
  let n := sqrt (fst (nsum cx c0 cadd (m0 t) (fun a => nsum cx c0 cadd (m1 t) (fun p => nsum cx c0 cadd (m2 t) (fun q => nsum cx c0 cadd (m3 t) (fun b => cmul (cconj (e4 t a p q b)) (e4 t a p q b))))))) in
  Ok (n, mkV out (vl v) (vr v) (vlog v) (vnorms v ++ [n])).
(** |new - old| / old < tolerance; a quotient by zero is infinite or not a number and never smaller *)
Definition converged (tol old new : real) : bool :=
  if Req_EM_T old 0 then false else if Rlt_dec (Rabs (new - old) / old) tol then true else false.
(** the loop over sweeps, 232-317; [k] sweeps left *)
Fixpoint vsweeps (tol : real) (p1 p2 : cmpo) (k sweep : nat) (old : real) (v : vstate) : res vstate :=
  match k with
  | O => Ok v
  | S k =>
    let! x := vsweep p1 p2 v in
    let (new, v) := x in
    if (1 <=? sweep) && converged tol old new then Ok v else vsweeps tol p1 p2 k (S sweep) new v
  end.
(** Generate3MPOEnvs, 428-463 *)
Definition vlast (st : cmpo) : res c4 := mderef cx st (length (mtens st) - 1).
Definition vstep_env (out p1 p2 : cmpo) (i : nat) (x : cg * (nat -> option cg)) : res (cg * (nat -> option cg)) :=
  let (re, f) := x in let j := length (mtens out) - i in
  let! t := mderef cx out j in let! a := mderef cx p1 j in let! b := mderef cx p2 j in
  let! re := vrenv re t a b in Ok (re, fset f i (Some re)).
Definition vgen (dbg : bool) (out p1 p2 : cmpo) (fl fr : nat -> option cg) : res ((nat -> option cg) * (nat -> option cg)) :=
  let N := length (mtens out) in
  let! _ := assert_ dbg (N =? length (mtens p1)) in
  let! _ := assert_ dbg (N =? length (mtens p2)) in
  let! t := vlast out in let! a := vlast p1 in let! b := vlast p2 in
  let re := vtriv (m3 t) (m3 a) (m3 b) in
  let! x := for_loop 1 (N - 2) (vstep_env out p1 p2) (re, fset fr 0 (Some re)) in
  let! t := mderef cx out 0 in let! a := mderef cx p1 0 in let! b := mderef cx p2 0 in
  Ok (fset fl 0 (Some (vtriv (m0 t) (m0 a) (m0 b))), snd x).
(** output_mpo(i) == nullptr for i = 0, 1, ... up to the first, 206-212; [n] sites left *)
Fixpoint vfilled (i n : nat) (out : cmpo) : res (bool * cmpo) :=
  match n with
  | O => Ok (true, out)
  | S n => let! out := mtouch cx i out in let! p := vget (mtens out) i in
           match p with None => Ok (false, out) | Some _ => vfilled (i + 1) n out end
  end.
(** the flags at the end, 319-325 *)
Definition vflags (N : nat) (out : cmpo) : res cmpo :=
  let! out := mflag 0 LEFT out in
  let! out := mflag 1 NONE out in
  let! out := for_loop 2 (N - 2) (fun i => mflag i RIGHT) out in
  Ok (mkFmpo (mtens out) (mtypes out) 1%Z).
(** MpoProduct, 192-327.  Files [fl], [fr] may be left from earlier calls.  With fewer than two sites N - 2 or the last flags are out of range *)
Definition mpo_vproduct (dbg : bool) (sweeps : nat) (tol : real) (p1 p2 out : cmpo) (fl fr : nat -> option cg) : res vstate :=
  let N := length (mtens p1) in
  if N <? 2 then Ub else
  let! x := vfilled 0 N out in
  let out := if fst x then snd x else p1 in
  let! out := mcentralize qr svd dbg 0 out in
  let! f := vgen dbg out p1 p2 fl fr in
  let! v := vsweeps tol p1 p2 sweeps 0 0%R (mkV out (fst f) (snd f) [] []) in
  let! out := vflags N (vout v) in
  Ok (mkV out (vl v) (vr v) (vlog v) (vnorms v)).

(** Square, finite_mpo.h 183-203; the directory may be missing *)
Definition mpo_square (dbg : bool) (sweeps : nat) (tol : real) (d : option (mdir cx)) (st : cmpo) (fl fr : nat -> option cg) : res (cmpo * vstate) :=
  let N := length (mtens st) in
  let! g := mpo_load cx d (mpo_new cx N) in
  let! v := mpo_vproduct dbg sweeps tol st st (snd g) fl fr in
  let c := mcenter (vout v) in
  let! st := for_loop 0 N (fun i st =>
    let! st := mtouch cx i st in let! p := vget (mtens st) i in
    let! _ := assert_ dbg (match p with Some _ => true | None => false end) in
    let! q := vget (mtens (vout v)) i in mput cx i q st) st in
  let! _ := assert_ dbg (negb (c =? -1)%Z) in
  let! st := set_center cx (mkFmpo (mtens st) (mtypes st) c) in
  Ok (st, v).
End Model.
