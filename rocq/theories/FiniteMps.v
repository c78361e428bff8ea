(** Model of FiniteMPS: one_dim_tn/mps/finite_mps/finite_mps.h.

    A local tensor is its three dimensions and its elements, in an arbitrary commutative ring (rounding is not
    modelled); quantum numbers and index directions are not modelled.  QR and SVD (of the tensor library) are
    arbitrary functions; what they satisfy is stated where it is used. *)
From Coq Require Import List Arith Lia Bool ZArith.
From Verif Require Import Base CoefOpAlg Numeric.
Import ListNotations.

(** finite_mps.h 33-37 *)
Inductive cano : Type := NONE | LEFT | RIGHT.
Definition is_left (c : cano) : bool := match c with LEFT => true | _ => false end.
Definition is_right (c : cano) : bool := match c with RIGHT => true | _ => false end.

Section Model.
Variables (R : Type) (r0 r1 : R) (radd rmul : R -> R -> R).
Notation nsum := (nsum R r0 radd).
Infix "*r" := rmul (at level 40).

(** local tensor, legs 0 (left), 1 (physical), 2 (right); matrix *)
Record ten : Type := mkTen { d0 : nat; d1 : nat; d2 : nat; el : nat -> nat -> nat -> R }.
Record mat2 : Type := mkMat2 { n0 : nat; n1 : nat; me : nat -> nat -> R }.

(** ten->Transpose({2, 1, 0}) *)
Definition transpose (t : ten) : ten := mkTen (d2 t) (d1 t) (d0 t) (fun a s b => el t b s a).
(** Contract(&r, ten, {{1}, {0}}); a dimension mismatch is undefined behaviour *)
Definition contract_mt (m : mat2) (t : ten) : res ten :=
  if n1 m =? d0 t then Ok (mkTen (n0 m) (d1 t) (d2 t) (fun a s b => nsum (n1 m) (fun k => me m a k *r el t k s b))) else Ub.
(** Contract(ten, &r, {{2}, {1}}) *)
Definition contract_tm1 (t : ten) (m : mat2) : res ten :=
  if d2 t =? n1 m then Ok (mkTen (d0 t) (d1 t) (n0 m) (fun a s b => nsum (d2 t) (fun k => el t a s k *r me m b k))) else Ub.
(** Contract(ten, &us, {{2}, {0}}) *)
Definition contract_tm0 (t : ten) (m : mat2) : res ten :=
  if d2 t =? n0 m then Ok (mkTen (d0 t) (d1 t) (n1 m) (fun a s b => nsum (d2 t) (fun k => el t a s k *r me m k b))) else Ub.

(** QR(ten, 2, ...) -> (q, r);  SVD(ten, 1, ...) followed by Contract(&u, &s): (u s, vt) and the singular values *)
Variable qr : ten -> ten * mat2.
Variable svd1 : ten -> mat2 * ten * list R.

(** the object: raw_data_ (duovector.h 238), tens_cano_type_, center_ (finite_mps.h 162-163) *)
Record fmps : Type := mkFmps { tens : list (option ten); types : list cano; center : Z }.
(** FiniteMPS(site_vec), finite_mps.h 62-65 *)
Definition fmps_new (n : nat) : fmps := mkFmps (repeat None n) (repeat NONE n) (-1)%Z.

(** non-const operator() (finite_mps.h 94-98): reset flag and center, give the slot *)
Definition touch (i : nat) (st : fmps) : res fmps :=
  let! ty := vset (types st) i NONE in
  let! _ := vget (tens st) i in
  Ok (mkFmps (tens st) ty (-1)%Z).
(** dereferencing the pointer of slot i *)
Definition deref (st : fmps) (i : nat) : res ten :=
  let! p := vget (tens st) i in match p with Some t => Ok t | None => Ub end.
Definition put (i : nat) (p : option ten) (st : fmps) : res fmps :=
  let! l := vset (tens st) i p in Ok (mkFmps l (types st) (center st)).
Definition flag (i : nat) (c : cano) (st : fmps) : res fmps :=
  let! ty := vset (types st) i c in Ok (mkFmps (tens st) ty (center st)).
(** assignment through operator[] / operator(): mps[i] = t, mps(i) = p (finite_mps.h 73-77, 94-98).  A reference kept
    by the caller for later writes is not modelled. *)
Definition assign (i : nat) (p : option ten) (st : fmps) : res fmps := let! st := touch i st in put i p st.

(** LeftCanonicalizeTen, finite_mps.h 193-225 (QR branch, the only one compiled) *)
Definition lcan_ten (dbg : bool) (i : nat) (st : fmps) : res fmps :=
  let! _ := assert_ dbg ((S i <? length (tens st)) || (length (tens st) =? 0)) in
  let! st := touch i st in
  let! a := deref st i in
  let (q, r) := qr a in
  let! st := put i (Some q) st in
  let! st := touch (i + 1) st in
  let! b := deref st (i + 1) in
  let! b' := contract_mt r b in
  let! st := put (i + 1) (Some b') st in
  let! st := flag i LEFT st in
  flag (i + 1) NONE st.

(** RightCanonicalizeTen, finite_mps.h 239-274; returns the singular values when use_svd *)
Definition rcan_ten (dbg : bool) (i : nat) (use_svd : bool) (st : fmps) : res (fmps * list R) :=
  let! _ := assert_ dbg (0 <? i) in
  match i with
  | O => Ub (* this->(size_t(-1)) *)
  | S j =>
    let! st := touch i st in
    let! a := deref st i in
    let! (st, s) :=
      (if use_svd then
        let '(us, vt, s) := svd1 a in
        let! st := put i (Some vt) st in
        let! st := touch j st in
        let! p := deref st j in
        let! p' := contract_tm0 p us in
        let! st := put j (Some p') st in Ok (st, s)
      else
        let (q, r) := qr (transpose a) in
        let! st := put i (Some (transpose q)) st in
        let! st := touch j st in
        let! p := deref st j in
        let! p' := contract_tm1 p r in
        let! st := put j (Some p') st in Ok (st, [])) in
    let! st := flag i RIGHT st in
    let! st := flag j NONE st in
    Ok (st, s)
  end.

(** first loop of LeftCanonicalize, 184-189: where to start; None: nothing to do.  [n] sites left, from [i] on *)
Fixpoint scan_left (ty : list cano) (i n : nat) : res (option nat) :=
  match n with
  | O => Ok (Some i)
  | S m => let! c := vget ty i in
           if negb (is_left c) then Ok (Some i) else if m =? 0 then Ok None else scan_left ty (S i) m
  end.
(** LeftCanonicalize, 182-191 *)
Definition left_cano (dbg : bool) (stop : nat) (st : fmps) : res fmps :=
  let! o := scan_left (types st) 0 (S stop) in
  match o with
  | None => Ok st
  | Some start => for_loop start (S stop - start) (lcan_ten dbg) st
  end.
(** first loop of RightCanonicalize, 231-235; [n] sites left, from [i] downwards *)
Fixpoint scan_right (ty : list cano) (i n : nat) : res (option nat) :=
  match n with
  | O => Ok (Some i)
  | S m => let! c := vget ty i in
           if negb (is_right c) then Ok (Some i) else if m =? 0 then Ok None else scan_right ty (i - 1) m
  end.
(** RightCanonicalize, 227-237.  If stop_idx > tail no loop iteration runs and start_idx is used uninitialised *)
Definition right_cano (dbg : bool) (stop : nat) (st : fmps) : res fmps :=
  let n := length (tens st) in
  if n <=? stop then Ub
  else
    let! o := scan_right (types st) (n - 1) (n - stop) in
    match o with
    | None => Ok st
    | Some start => for_each (rev (seq stop (S start - stop))) (fun i st => let! (st, _) := rcan_ten dbg i false st in Ok st) st
    end.

(** Centralize, 171-180 *)
Definition centralize (dbg : bool) (k : Z) (st : fmps) : res fmps :=
  let! _ := assert_ dbg (0 <=? k)%Z in
  if (k <? 0)%Z then Ub (* size_t(k - 1) is huge: the flags are read out of range *)
  else
    let c := Z.to_nat k in
    let! st := (if c =? 0 then Ok st else left_cano dbg (c - 1) st) in
    let! st := (if (negb (length (tens st) =? 0)) && (c =? length (tens st) - 1) then Ok st else right_cano dbg (c + 1) st) in
    Ok (mkFmps (tens st) (types st) k).

(** std::swap(this->(i), this->(j)), 316 *)
Definition swap_slots (i j : nat) (st : fmps) : res fmps :=
  let! st := touch i st in
  let! st := touch j st in
  let! a := vget (tens st) i in
  let! b := vget (tens st) j in
  let! st := put i b st in
  put j a st.
(** Reverse, 311-337 *)
Definition reverse (st : fmps) : res fmps :=
  let n := length (tens st) in
  let! st := (if Nat.even n then for_loop 0 (n / 2) (fun i => swap_slots i (n - 1 - i)) st
              else for_loop 0 ((n - 1) / 2) (fun i => swap_slots i (n - 1 - i)) st) in
  let! st := for_loop 0 n (fun i st => let! st := touch i st in let! t := deref st i in put i (Some (transpose t)) st) st in
  if (center st =? -1)%Z then Ok st
  else
    let! ty := for_loop 0 n (fun i ty => let! c := vget ty i in
                 match c with RIGHT => vset ty i LEFT | LEFT => vset ty i RIGHT | NONE => Ok ty end) (types st) in
    Ok (mkFmps (tens st) ty (Z.of_nat n - 1 - center st)%Z).

(** state change of GetEntanglementEntropy, 276-309 (this->[N-1].Normalize() then SVDs); the entropies themselves are
    computed from the returned singular values and not modelled *)
Variable normalize : ten -> ten.
Definition entropy (dbg : bool) (st : fmps) : res (fmps * list (list R)) :=
  let n := length (tens st) in
  match n with
  | O => Ub
  | S m =>
    let! st := centralize dbg (Z.of_nat m) st in
    let! st := touch m st in
    let! t := deref st m in
    let! st := put m (Some (normalize t)) st in
    for_each (rev (seq 1 m)) (fun i x => let! (st, s) := rcan_ten dbg i true (fst x) in Ok (st, s :: snd x)) (st, [])
  end.

(** inherited functions (duovector.h 193-217, ten_vec.h 61-75, mps.h 101-107): they do not know the flags.
    [file i] is the content of the file of site i; a missing file throws after the old element has been replaced by a
    default tensor (the state after the exception is not modelled). *)
Definition dealloc (i : nat) (st : fmps) : res fmps := put i None st.
Definition load_ten (i : nat) (f : option ten) (st : fmps) : res fmps :=
  match f with Some t => put i (Some t) st | None => Abort end.
Definition load_all (file : nat -> option ten) (st : fmps) : res fmps :=
  for_loop 0 (length (tens st)) (fun i => load_ten i (file i)) st.
End Model.
Arguments mkTen {R}. Arguments d0 {R}. Arguments d1 {R}. Arguments d2 {R}. Arguments el {R}.
Arguments mkMat2 {R}. Arguments n0 {R}. Arguments n1 {R}. Arguments me {R}.
Arguments mkFmps {R}. Arguments tens {R}. Arguments types {R}. Arguments center {R}.
