(** Initial matrix product states: one_dim_tn/mps/finite_mps/finite_mps_init.h.

    An index is the list of its sectors (quantum number, dimension).  Quantum numbers are elements of an abelian group.
    Tensors are given by their indices and by what they are filled with; Centralize at the end is not repeated here (C12). *)
From Coq Require Import List Arith Bool.
From Verif Require Import Base.
Import ListNotations.

Section Init.
Variables (Q : Type) (qadd qsub : Q -> Q -> Q).
Definition index : Type := list (Q * nat).
(** Index::GetQNSctFromActualCoor: the sector of a basis state; out of range is undefined *)
Fixpoint sector_at (ix : index) (coor : nat) : res Q := match ix with [] => Ub | (q, d) :: t => if coor <? d then Ok q else sector_at t (coor - d) end.
(** total quantum number of the product state, finite_mps_init.h 230-233 (also 285-288, 343-346) *)
Definition div_loop (sites : list index) (labs : list nat) : res Q :=
  let! p := vget sites 0 in let! l := vget labs 0 in let! q := sector_at p l in
  for_loop 1 (length sites - 1) (fun i d => let! p := vget sites i in let! l := vget labs i in let! q := sector_at p l in Ok (qadd d q)) q.

(** ** Product states *)
(** a tensor with bonds of dimension 1: quantum numbers of the bonds, physical index, the position of its only element, which is 1 *)
Record pten : Type := mkPten { pl : Q; pp : index; plab : nat; pr : Q }.
(** DirectStateInitMps, 214-262; [zerodiv]: DirectStateInitZeroDivMps, 269-317.  With one site the first tensor is overwritten (and leaked). *)
Definition direct_init (zerodiv dbg : bool) (sites : list index) (labs : list nat) : res (list pten) :=
  let N := length sites in
  let! _ := assert_ dbg (N =? length labs) in
  let! div := div_loop sites labs in
  let zero := qsub div div in
  let! p0 := vget sites 0 in let! l0 := vget labs 0 in let! q0 := sector_at p0 l0 in
  let rq0 := qsub (if zerodiv then zero else div) q0 in
  let! st := for_loop 1 (N - 2) (fun i (st : list pten * Q) =>
      let (ts, rq) := st in
      let! p := vget sites i in let! l := vget labs i in let! q := sector_at p l in
      Ok (ts ++ [mkPten rq p l (qsub rq q)], qsub rq q)) ([mkPten zero p0 l0 rq0], rq0) in
  let (ts, rq) := st in
  let! p := vget sites (N - 1) in let! l := vget labs (N - 1) in
  if N =? 1 then Ok [mkPten rq p l zero] else Ok (ts ++ [mkPten rq p l zero]).

(** ** Random states around several product states: ExtendDirectRandomInitMps, 323-386 *)
(** a tensor filled with random numbers in all blocks of divergence [tdiv] *)
Record rten : Type := mkRten { tl : index; tp : index; tr : index; tdiv : Q }.
Definition next_sectors (labss : list (list nat)) (i : nat) (p : index) (lq : nat -> res Q) (dim : nat) : res index :=
  for_loop 0 (length labss) (fun j acc =>
    let! labs := vget labss j in let! l := vget labs i in let! q := sector_at p l in let! b := lq j in Ok (acc ++ [(qsub b q, dim)])) [].
Definition ext_init (dbg : bool) (sites : list index) (labss : list (list nat)) (dim : nat) : res (list rten) :=
  let N := length sites in
  let! _ := assert_ dbg (1 <=? length labss) in
  let! labs0 := vget labss 0 in
  let! _ := assert_ dbg (N =? length labs0) in
  let! div := div_loop sites labs0 in
  let zero := qsub div div in
  let! p0 := vget sites 0 in
  let! r0 := next_sectors labss 0 p0 (fun _ => Ok div) dim in
  let! st := for_loop 1 (N - 2) (fun i (st : list rten * index) =>
      let (ts, lvb) := st in
      let! p := vget sites i in
      let! rvb := next_sectors labss i p (fun j => sector_at lvb (j * dim)) dim in
      Ok (ts ++ [mkRten lvb p rvb zero], rvb)) ([mkRten [(zero, 1)] p0 r0 div], r0) in
  let (ts, lvb) := st in
  let! p := vget sites (N - 1) in
  if N =? 1 then Ok [mkRten lvb p [(zero, 1)] zero] else Ok (ts ++ [mkRten lvb p [(zero, 1)] zero]).
End Init.
