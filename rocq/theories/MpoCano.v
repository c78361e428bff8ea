(** Canonical forms and truncation of a FiniteMPO: one_dim_tn/mpo/finite_mpo/finite_mpo.h, on top of the model of the class (FinMpo.v),
    over complex numbers (rounding is not modelled).  Quantum numbers (and with them Div) are not modelled.  The decompositions of the
    tensor library are arbitrary functions; what they satisfy is stated where it is used. *)
From Coq Require Import List Arith Bool ZArith Reals.
From Verif Require Import Base CoefOpAlg Numeric FiniteMps FmpsSpec FinMpo Cx GVec TruncMps.
Import ListNotations.
Local Open Scope nat_scope.

Notation c4 := (ten4 cx).
Notation cmpo := (fmpo cx).

(** Contract(&r, ten, {{1}, {0}}) *)
Definition contract_m4 (m : cmat) (t : c4) : res c4 :=
  if n1 m =? m0 t then Ok (mkTen4 (n0 m) (m1 t) (m2 t) (m3 t) (fun a s s' b => nsum cx c0 cadd (n1 m) (fun k => cmul (me m a k) (e4 t k s s' b)))) else Ub.
(** Contract(ten, &us, {{3}, {0}}) *)
Definition contract_4m (t : c4) (m : cmat) : res c4 :=
  if m3 t =? n0 m then Ok (mkTen4 (m0 t) (m1 t) (m2 t) (n1 m) (fun a s s' b => nsum cx c0 cadd (m3 t) (fun k => cmul (e4 t a s s' k) (me m k b)))) else Ub.
(** Contract(&u, &s, {{1}, {0}}, &temp_ten): s is diagonal *)
Definition contract_us (u : cmat) (s : list real) : res cmat :=
  if n1 u =? length s then Ok (mkMat2 (n0 u) (length s) (fun x k => cmul (me u x k) (cre (nth k s 0%R)))) else Ub.
Definition mflag (i : nat) (c : cano) (st : cmpo) : res cmpo := let! ty := vset (mtypes st) i c in Ok (mkFmpo (mtens st) ty (mcenter st)).

Section Model.
(** QR(ten, 3, ...) -> (q, r) *)
Variable qr : c4 -> c4 * cmat.
(** mock_qlten::SVD(ten, 1, ...) -> (u, s, vt), nothing is discarded; qlten::SVD with trunc_err, Dmin, Dmax -> (u, s, vt, actual_trunc_err) *)
Variable svd : c4 -> cmat * list real * c4.
Variable svdt : real -> nat -> nat -> c4 -> cmat * list real * c4 * real.

(** LeftCanonicalizeTen, finite_mpo.h 358-376 *)
Definition mlcan_ten (dbg : bool) (i : nat) (st : cmpo) : res cmpo :=
  let! _ := assert_ dbg ((S i <? length (mtens st)) || (length (mtens st) =? 0)) in
  let! st := mtouch cx i st in
  let! a := mderef cx st i in
  let (q, r) := qr a in
  let! st := mput cx i (Some q) st in
  let! st := mtouch cx (i + 1) st in
  let! b := mderef cx st (i + 1) in
  let! b' := contract_m4 r b in
  let! st := mput cx (i + 1) (Some b') st in
  let! st := mflag i LEFT st in
  mflag (i + 1) NONE st.

(** the common part of RightCanonicalizeTen, 390-415, and RightCanonicalizeTen_, 477-506: what follows the SVD *)
Definition absorb (i j : nat) (u : cmat) (s : list real) (vt : c4) (st : cmpo) : res cmpo :=
  let! st := mput cx i (Some vt) st in
  let! us := contract_us u s in
  let! st := mtouch cx j st in
  let! p := mderef cx st j in
  let! p' := contract_4m p us in
  let! st := mput cx j (Some p') st in
  let! st := mflag i RIGHT st in
  mflag j NONE st.
Definition mrcan_ten (dbg : bool) (i : nat) (st : cmpo) : res cmpo :=
  let! _ := assert_ dbg (0 <? i) in
  match i with
  | O => Ub
  | S j => let! st := mtouch cx i st in let! a := mderef cx st i in let '(u, s, vt) := svd a in absorb i j u s vt st
  end.
(** with truncation; the printed truncation error and bond dimension are returned *)
Definition mrcan_trunc (dbg : bool) (terr : real) (Dmin Dmax : nat) (i : nat) (x : cmpo * list (real * nat)) : res (cmpo * list (real * nat)) :=
  let (st, out) := x in
  let! _ := assert_ dbg (0 <? i) in
  match i with
  | O => Ub
  | S j => let! st := mtouch cx i st in let! a := mderef cx st i in
           let '(u, s, vt, e) := svdt terr Dmin Dmax a in
           let! st := absorb i j u s vt st in Ok (st, out ++ [(e, length s)])
  end.

(** LeftCanonicalize, 347-356; RightCanonicalize, 378-388 *)
Definition mleft_cano (dbg : bool) (stop : nat) (st : cmpo) : res cmpo :=
  let! o := scan_left (mtypes st) 0 (S stop) in
  match o with
  | None => Ok st
  | Some start => for_loop start (S stop - start) (mlcan_ten dbg) st
  end.
Definition mright_cano (dbg : bool) (stop : nat) (st : cmpo) : res cmpo :=
  let n := length (mtens st) in
  if n <=? stop then Ub
  else
    let! o := scan_right (mtypes st) (n - 1) (n - stop) in
    match o with
    | None => Ok st
    | Some start => for_each (rev (seq stop (S start - stop))) (mrcan_ten dbg) st
    end.
(** Centralize, 336-345.  The comparison with the tail index converts the target to an unsigned number *)
Definition mcentralize (dbg : bool) (k : Z) (st : cmpo) : res cmpo :=
  let! _ := assert_ dbg (0 <=? k)%Z in
  if (k <? 0)%Z then Ub
  else
    let c := Z.to_nat k in
    let! st := (if c =? 0 then Ok st else mleft_cano dbg (c - 1) st) in
    let! st := (if (c + 1 =? length (mtens st)) then Ok st else mright_cano dbg (c + 1) st) in
    Ok (mkFmpo (mtens st) (mtypes st) k).
(** Truncate, 417-436.  An empty chain reads out of range *)
Definition mpo_truncate (dbg : bool) (terr : real) (Dmin Dmax : nat) (st : cmpo) : res (cmpo * list (real * nat)) :=
  let n := length (mtens st) in
  let! _ := assert_ dbg (2 <=? n) in
  if n =? 0 then Ub else
  let! st := mcentralize dbg (Z.of_nat (n - 1)) st in
  for_each (rev (seq 1 (n - 1))) (mrcan_trunc dbg terr Dmin Dmax) (st, []).
End Model.
