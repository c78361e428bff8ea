(** Model of [SparMat] (one_dim_tn/mpo/mpogen/symb_alg/sparse_mat.h), the row-major sparse matrix.
    The raw representation is kept: [indexes] ([-1] is [None]) and [data].  [long] and [size_t]
    are unbounded naturals here (no overflow of sizes is modelled). *)
From Coq Require Import List Arith Lia Bool.
From Verif Require Import Base.
Import ListNotations.

(** sparse_mat.h 223-226 *)
Record mat (E : Type) : Type := mkMat
  { rows : nat; cols : nat; data : list E; idxs : list (option nat) }.
Arguments mkMat {E}.
Arguments rows {E}.
Arguments cols {E}.
Arguments data {E}.
Arguments idxs {E}.

Section SparMat.
Variable E : Type.
Variable nullE : E.              (* ElemType() *)
Variable eqE : E -> E -> bool.   (* operator== of ElemType *)

(** sparse_mat.h 22 *)
Definition mat_empty : mat E := mkMat 0 0 [] [].

(** sparse_mat.h 24-26 *)
Definition mat_new (r c : nat) : mat E := mkMat r c [] (repeat None (r * c)).

(** sparse_mat.h 208-210 *)
Definition offset (m : mat E) (r c : nat) : nat := r * cols m + c.

(** sparse_mat.h 47-54 *)
Definition get (m : mat E) (r c : nat) : res E :=
  let! i := vget (idxs m) (offset m r c) in
  match i with
  | None => Ok nullE
  | Some k => vget (data m) k
  end.

(** sparse_mat.h 60-67 *)
Definition is_null (m : mat E) (r c : nat) : res bool :=
  let! i := vget (idxs m) (offset m r c) in
  Ok (match i with None => true | Some _ => false end).

(** sparse_mat.h 69-79 *)
Definition set_elem (m : mat E) (r c : nat) (e : E) : res (mat E) :=
  if eqE e nullE then Ok m else
  let o := offset m r c in
  let! i := vget (idxs m) o in
  match i with
  | None =>
      let! ix := vset (idxs m) o (Some (length (data m))) in
      Ok (mkMat (rows m) (cols m) (data m ++ [e]) ix)
  | Some k =>
      let! d := vset (data m) k e in
      Ok (mkMat (rows m) (cols m) d (idxs m))
  end.

(** sparse_mat.h 82-90 and 92-100 *)
Definition get_row (dbg : bool) (m : mat E) (r : nat) : res (list E) :=
  let! _ := assert_ dbg (r <? rows m) in
  for_loop 0 (cols m) (fun y acc => let! e := get m r y in Ok (acc ++ [e])) [].

Definition get_col (dbg : bool) (m : mat E) (c : nat) : res (list E) :=
  let! _ := assert_ dbg (c <? cols m) in
  for_loop 0 (rows m) (fun x acc => let! e := get m x c in Ok (acc ++ [e])) [].

(** sparse_mat.h 103-121 (the messages printed on failure are omitted) *)
Definition mat_eq (m1 m2 : mat E) : res bool :=
  if negb (rows m1 =? rows m2) then Ok false else
  if negb (cols m1 =? cols m2) then Ok false else
  for_loop 0 (rows m1) (fun x b =>
    for_loop 0 (cols m1) (fun y b' =>
      let! a1 := get m1 x y in
      let! a2 := get m2 x y in
      Ok (b' && eqE a1 a2)) b) true.

(** sparse_mat.h 124-134.  [erase] of an invalid iterator range is undefined behaviour. *)
Definition remove_row (dbg : bool) (m : mat E) (r : nat) : res (mat E) :=
  let! _ := assert_ dbg (r <? rows m) in
  if rows m =? 1 then Ok mat_empty else
  let b := offset m r 0 in
  let e := offset m (S r) 0 in
  if e <=? length (idxs m)
  then if rows m =? 0 then Ub   (* rows - 1 wraps *)
       else Ok (mkMat (rows m - 1) (cols m) (data m) (firstn b (idxs m) ++ skipn e (idxs m)))
  else Ub.

(** The copying loop of sparse_mat.h 147-149 and 154-156:
    [for (i = 0; i < n; i++) v[s + i] = v[s + i + d]] . *)
Definition shift_piece {A} (s d n : nat) (v : list A) : res (list A) :=
  for_loop 0 n (fun i v' => let! a := vget v' (s + i + d) in vset v' (s + i) a) v.

(** sparse_mat.h 136-158.  With [rows = 0] the loop bound [rows - 1] wraps around and the loop writes
    out of range. *)
Definition remove_col (dbg : bool) (m : mat E) (c : nat) : res (mat E) :=
  let! _ := assert_ dbg (c <? cols m) in
  if cols m =? 1 then Ok mat_empty else
  if (rows m =? 0) || (cols m =? 0) then Ub else
  let nc := cols m - 1 in
  let! ix := for_loop 0 (rows m - 1) (fun x v => shift_piece (x * nc + c) (x + 1) nc v) (idxs m) in
  let x := rows m - 1 in
  let start := x * nc + c in
  if nc * rows m <? start then Ub else      (* nc*rows - start wraps *)
  let! ix' := shift_piece start (x + 1) (nc * rows m - start) ix in
  if nc * rows m <=? length ix' then
    Ok (mkMat (rows m) nc (data m) (firstn (nc * rows m) ix'))
  else Ub.

(** [std::swap(v[i], v[j])] *)
Definition vswap {A} (v : list A) (i j : nat) : res (list A) :=
  let! a := vget v i in
  let! b := vget v j in
  let! v1 := vset v i b in
  vset v1 j a.

(** sparse_mat.h 161-169 and 171-179 *)
Definition swap_rows (dbg : bool) (m : mat E) (r1 r2 : nat) : res (mat E) :=
  let! _ := assert_ dbg ((r1 <? rows m) && (r2 <? rows m)) in
  if r1 =? r2 then Ok m else
  let! ix := for_loop 0 (cols m) (fun y v => vswap v (offset m r1 y) (offset m r2 y)) (idxs m) in
  Ok (mkMat (rows m) (cols m) (data m) ix).

Definition swap_cols (dbg : bool) (m : mat E) (c1 c2 : nat) : res (mat E) :=
  let! _ := assert_ dbg ((c1 <? cols m) && (c2 <? cols m)) in
  if c1 =? c2 then Ok m else
  let! ix := for_loop 0 (rows m) (fun x v => vswap v (offset m x c1) (offset m x c2)) (idxs m) in
  Ok (mkMat (rows m) (cols m) (data m) ix).

(** sparse_mat.h 182-193.  [std::vector<long> new_indexes(n)] is zero-initialised. *)
Definition transpose_rows (dbg : bool) (m : mat E) (p : list nat) : res (mat E) :=
  let! _ := assert_ dbg (length p =? rows m) in
  let! ix := for_loop 0 (rows m) (fun i v =>
    let! t := vget p i in
    for_loop 0 (cols m) (fun y v' =>
      let! a := vget (idxs m) (offset m t y) in
      vset v' (offset m i y) a) v) (repeat (Some 0) (length (idxs m))) in
  Ok (mkMat (rows m) (cols m) (data m) ix).

(** sparse_mat.h 195-206 *)
Definition transpose_cols (dbg : bool) (m : mat E) (p : list nat) : res (mat E) :=
  let! _ := assert_ dbg (length p =? cols m) in
  let! ix := for_loop 0 (cols m) (fun i v =>
    let! t := vget p i in
    for_loop 0 (rows m) (fun x v' =>
      let! a := vget (idxs m) (offset m x t) in
      vset v' (offset m x i) a) v) (repeat (Some 0) (length (idxs m))) in
  Ok (mkMat (rows m) (cols m) (data m) ix).

End SparMat.

Arguments mat_empty {E}.
Arguments mat_new {E}.
Arguments offset {E}.
Arguments get {E}.
Arguments is_null {E}.
Arguments set_elem {E}.
Arguments get_row {E}.
Arguments get_col {E}.
Arguments mat_eq {E}.
Arguments remove_row {E}.
Arguments remove_col {E}.
Arguments swap_rows {E}.
Arguments swap_cols {E}.
Arguments transpose_rows {E}.
Arguments transpose_cols {E}.
