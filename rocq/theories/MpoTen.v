(** Model of the conversion of operator matrices to MPO tensors: mpogen_impl.h 287-360 (Gen, GenMatReprMPO),
    372-441 (sorting by quantum number) and 443-543 (filling the tensors). *)
From Coq Require Import List Arith Lia Bool.
From Verif Require Import Base SparMat CoefOp Fsm MpoGen.
Import ListNotations.

Section Ten.
Variables (R : Type) (r0 : R) (radd rmul : R -> R -> R).
Variables (Q : Type) (q0 : Q) (qsub : Q -> Q -> Q) (qeqb : Q -> Q -> bool).
(** divergence of a local operator: [Div] of qlten *)
Variable dv : lop R -> Q.

(** *** Realisation of symbolic operators.
    Scalar times tensor and tensor += tensor (qlten); adding tensors on different indexes is undefined. *)
Definition map2 {A B C} (f : A -> B -> C) (a : list A) (b : list B) : list C := map (fun p => f (fst p) (snd p)) (combine a b).
Definition lop_scale (c : R) (o : lop R) : lop R := mkLop (lo_ix o) (map (map (rmul c)) (lo_dat o)).
Definition lop_plus (a b : lop R) : res (lop R) :=
  if lo_ix a =? lo_ix b then Ok (mkLop (lo_ix a) (map2 (map2 radd) (lo_dat a) (lo_dat b))) else Ub.
(** coef_op_alg.h 109-115 *)
Definition real_coef (ch : list R) (c : coef) : res R :=
  for_each c (fun l acc => let! x := vget ch l in Ok (radd acc x)) r0.
Definition real_one (ch : list R) (oh : list (lop R)) (kc : nat * coef) : res (lop R) :=
  let! c := real_coef ch (snd kc) in let! o := vget oh (fst kc) in Ok (lop_scale c o).
(** coef_op_alg.h 273-295; the default tensor returned for the null operator is not modelled (never asked for) *)
Definition realize (ch : list R) (oh : list (lop R)) (e : oprepr) : res (lop R) :=
  match e with
  | [] => Ub
  | kc :: t => let! o := real_one ch oh kc in
               for_each t (fun kc' acc => let! o' := real_one ch oh kc' in lop_plus acc o') o
  end.

(** A virtual bond index: sectors (quantum number, dimension).  Directions are not modelled. *)
Definition vb : Type := list (Q * nat).

(** [GetQNSctFromActualCoor(x).GetQn()] *)
Fixpoint vb_qn (v : vb) (x : nat) : res Q :=
  match v with
  | [] => Ub
  | (q, d) :: t => if x <? d then Ok q else vb_qn t (x - d)
  end.

(** mpogen_impl.h 371-381 *)
Definition calc_rvb (v : vb) (oh : list (lop R)) (x : nat) (e : oprepr) : res Q :=
  let! q := vb_qn v x in
  match e with
  | [] => Ub
  | (l, _) :: _ => let! o := vget oh l in Ok (qsub q (dv o))
  end.

(** The scan over [rvb_qn_dim_pairs] (mpogen_impl.h 410-426): updated sectors and insertion offset. *)
Fixpoint qn_insert (q : Q) (pairs : vb) (off : nat) : vb * nat :=
  match pairs with
  | [] => ([(q, 1)], off)
  | (q', d) :: t => if qeqb q' q then ((q', S d) :: t, off)
                    else let (t', p) := qn_insert q t (off + d) in ((q', d) :: t', p)
  end.
(** [v.insert(v.begin() + k, x)] *)
Definition insert_at (k x : nat) (l : list nat) : res (list nat) :=
  if k <=? length l then Ok (firstn k l ++ x :: skipn k l) else Ub.

(** One row of the loops at mpogen_impl.h 400-431.  State: quantum number of the column if known, sectors,
    column order. *)
Definition qn_row (dbg : bool) (m : opmat) (v : vb) (oh : list (lop R)) (col row : nat)
  (st : option Q * vb * list nat) : res (option Q * vb * list nat) :=
  match st with
  | (cq, pairs, idxs) =>
      let! e := oget_ m row col in
      if op_isnull e then Ok st else
      let! q := calc_rvb v oh row e in
      match cq with
      | None =>
          let (pairs', off) := qn_insert q pairs 0 in
          let! idxs' := insert_at off col idxs in
          Ok (Some q, pairs', idxs')
      | Some q' => let! _ := assert_ dbg (qeqb q q') in Ok st
      end
  end.
(** mpogen_impl.h 390-441 *)
Definition sort_cols_qn (dbg : bool) (m : opmat) (v : vb) (oh : list (lop R)) : res (opmat * vb * list nat) :=
  let! (pairs, idxs) := for_loop 0 (cols m) (fun col st =>
     let! (_, pairs, idxs) := for_loop 0 (rows m) (qn_row dbg m v oh col) (None, fst st, snd st) in
     Ok (pairs, idxs)) ([], []) in
  let! m' := transpose_cols dbg m idxs in
  Ok (m', pairs, idxs).

(** An MPO tensor: the two virtual bonds and the operators written into it, with their virtual coordinates, in the
    order of writing. *)
Record mten := mkTen { mt_l : vb; mt_r : vb; mt_w : list (nat * nat * lop R) }.

Definition collect (ch : list R) (oh : list (lop R)) (m : opmat) (x y : nat) (w : list (nat * nat * lop R)) :
  res (list (nat * nat * lop R)) :=
  let! e := oget_ m x y in
  if op_isnull e then Ok w else let! o := realize ch oh e in Ok (w ++ [(x, y, o)]).
(** mpogen_impl.h 443-462, 464-482, 484-506 *)
Definition head_ten ch oh (m : opmat) (rvb : vb) : res mten :=
  let! s := vget rvb 0 in
  let! w := for_loop 0 (cols m) (fun y w => collect ch oh m 0 y w) [] in
  Ok (mkTen [(qsub (fst s) (fst s), 1)] rvb w).
Definition tail_ten ch oh (m : opmat) (lvb : vb) : res mten :=
  let! s := vget lvb 0 in
  let! w := for_loop 0 (rows m) (fun x w => collect ch oh m x 0 w) [] in
  Ok (mkTen lvb [(qsub (fst s) (fst s), 1)] w).
Definition all_entries ch oh (m : opmat) : res (list (nat * nat * lop R)) :=
  for_loop 0 (rows m) (fun x w => for_loop 0 (cols m) (fun y w' => collect ch oh m x y w') w) [].
Definition cent_ten ch oh (m : opmat) (lvb rvb : vb) : res mten :=
  let! w := all_entries ch oh m in Ok (mkTen lvb rvb w).

(** Element (x, a, b, y) of a tensor that starts as zero and into which operators are written one after the other,
    elements equal to zero being skipped: mpogen_impl.h 508-543. *)
Definition ten_elem (reqb : R -> R -> bool) (w : list (nat * nat * lop R)) (x a b y : nat) : R :=
  fold_left (fun acc e =>
    if (fst (fst e) =? x) && (snd (fst e) =? y)
    then let z := nth b (nth a (lo_dat (snd e)) []) r0 in if reqb z r0 then acc else z
    else acc) w r0.

(** mpogen_impl.h 305-330 *)
Definition ten_step (dbg : bool) (n : nat) (ch : list R) (oh : list (lop R)) (ms : list opmat) (i : nat)
  (st : vb * list nat * list mten) : res (vb * list nat * list mten) :=
  match st with
  | (v, idxs, acc) =>
      let! m := vget ms i in
      if i =? 0 then
        let! (m', v', idxs') := sort_cols_qn dbg m v oh in
        let! t := head_ten ch oh m' v' in
        Ok (v', idxs', acc ++ [t])
      else if i =? n - 1 then
        let! m' := transpose_rows dbg m idxs in
        let! t := tail_ten ch oh m' v in
        Ok (v, idxs, acc ++ [t])
      else
        let! m1 := transpose_rows dbg m idxs in
        let! (m', v', idxs') := sort_cols_qn dbg m1 v oh in
        let! t := cent_ten ch oh m' v v' in
        Ok (v', idxs', acc ++ [t])
  end.
(** mpogen_impl.h 287-331; [zero_div] is the divergence passed to the constructor *)
Definition gen_mpo (dbg compress : bool) (zero_div : Q) (g : gen R) : res (list mten) :=
  let! ms := (if compress then gen_compressed dbg (g_fsm g) else gen_mat_repr (g_fsm g)) in
  let! (_, _, acc) := for_loop 0 (g_n g) (ten_step dbg (g_n g) (g_ch g) (g_oh g) ms) ([(zero_div, 1)], [], []) in
  Ok acc.

(** mpogen_impl.h 333-360: number of rows and columns of every matrix and the operators set in it *)
Definition gen_mat_mpo (dbg : bool) (g : gen R) : res (list (nat * nat * list (nat * nat * lop R))) :=
  let! ms := gen_compressed dbg (g_fsm g) in
  for_loop 0 (g_n g) (fun i acc =>
    let! m := vget ms i in
    let! w := all_entries (g_ch g) (g_oh g) m in
    Ok (acc ++ [(rows m, cols m, w)])) [].
End Ten.
Arguments mt_l {R Q}. Arguments mt_r {R Q}. Arguments mt_w {R Q}. Arguments mkTen {R Q}.
