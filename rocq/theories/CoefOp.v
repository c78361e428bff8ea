(** Model of one_dim_tn/mpo/mpogen/symb_alg/coef_op_alg.h : symbolic coefficients, symbolic operators,
    sparse operator matrices and their row/column compression.  Printing functions are omitted. *)
From Coq Require Import List Arith Lia Bool.
From Verif Require Import Base SparMat.
Import ListNotations.

(** *** Coefficients: coef_op_alg.h 36-161.  A coefficient is a list of labels (a formal sum). *)
Definition coef := list nat.
Definition kIdCoefLabel : nat := 0.
Definition kNull : coef := [].
Definition kId : coef := [kIdCoefLabel].

Fixpoint remove1 (x : nat) (l : list nat) : option (list nat) :=
  match l with
  | [] => None
  | y :: t => if x =? y then Some t else option_map (cons y) (remove1 x t)
  end.

(** coef_op_alg.h 70-73: [std::is_permutation] *)
Fixpoint coef_eq (a b : coef) : bool :=
  match a with
  | [] => match b with [] => true | _ => false end
  | x :: t => match remove1 x b with Some b' => coef_eq t b' | None => false end
  end.

(** *** Operators: coef_op_alg.h 170-364.  [std::map<BasisOpLabel, CoefRepr>] is an association list
    with strictly ascending keys. *)
Definition oprepr := list (nat * coef).
Definition kNullOp : oprepr := [].

(** coef_op_alg.h 184-190 *)
Definition op_of_label (l : nat) : oprepr := [(l, kId)].
Definition op_of_coef_label (c : coef) (l : nat) : oprepr := [(l, c)].

(** [find]/[insert]/[+=] on the map, coef_op_alg.h 256-262 *)
Fixpoint map_add (k : nat) (c : coef) (m : oprepr) : oprepr :=
  match m with
  | [] => [(k, c)]
  | (k', c') :: t =>
      if k <? k' then (k, c) :: m
      else if k =? k' then (k', c' ++ c) :: t
      else (k', c') :: map_add k c t
  end.

(** coef_op_alg.h 251-271 *)
Definition op_add (a b : oprepr) : oprepr :=
  fold_left (fun m kc => map_add (fst kc) (snd kc) m) b a.

(** coef_op_alg.h 243-245: [std::map] equality (same size, equal pairs in order) *)
Fixpoint op_eq (a b : oprepr) : bool :=
  match a, b with
  | [], [] => true
  | (k, c) :: a', (k', c') :: b' => (k =? k') && coef_eq c c' && op_eq a' b'
  | _, _ => false
  end.

Definition op_isnull (a : oprepr) : bool := op_eq a kNullOp.

(** every coefficient replaced by [c] *)
Definition set_coefs (c : coef) (a : oprepr) : oprepr := map (fun kc => (fst kc, c)) a.

(** coef_op_alg.h 375-400 *)
Definition separate (op : oprepr) : coef * oprepr :=
  match op with
  | [] => (kNull, kNullOp)
  | [(k, c)] => (c, op_of_label k)
  | (k, c) :: t =>
      if forallb (fun kc => coef_eq (snd kc) c) t
      then (c, set_coefs kId op)
      else (kId, op)
  end.

(** coef_op_alg.h 402-404 *)
Definition op_coef (op : oprepr) : coef := fst (separate op).

(** *** Matrices *)
Definition opmat := mat oprepr.
Definition coefmat := mat coef.

Definition oget_ : opmat -> nat -> nat -> res oprepr := get kNullOp.
Definition oset : opmat -> nat -> nat -> oprepr -> res opmat := set_elem kNullOp op_eq.
Definition cget : coefmat -> nat -> nat -> res coef := get kNull.
Definition cset : coefmat -> nat -> nat -> coef -> res coefmat := set_elem kNull coef_eq.

(** coef_op_alg.h 561-585: number of non-null elements of a row / column *)
Definition row_count (m : opmat) (x : nat) : res nat :=
  for_loop 0 (cols m) (fun y n => let! b := is_null m x y in Ok (if b then n else S n)) 0.
Definition col_count (m : opmat) (y : nat) : res nat :=
  for_loop 0 (rows m) (fun x n => let! b := is_null m x y in Ok (if b then n else S n)) 0.

Definition pair_leb (a b : nat * nat) : bool :=
  (fst a <? fst b) || ((fst a =? fst b) && (snd a <=? snd b)).

(** [std::sort] on a vector of pairs: the result is determined because all pairs differ. *)
Fixpoint insert_pair (a : nat * nat) (l : list (nat * nat)) : list (nat * nat) :=
  match l with
  | [] => [a]
  | b :: t => if pair_leb a b then a :: l else b :: insert_pair a t
  end.
Definition sort_pairs (l : list (nat * nat)) : list (nat * nat) := fold_right insert_pair [] l.

(** coef_op_alg.h 433-442 *)
Definition sort_rows (dbg : bool) (m : opmat) : res (opmat * list nat) :=
  let! mp := for_loop 0 (rows m) (fun x acc => let! n := row_count m x in Ok (acc ++ [(n, x)])) [] in
  let p := map snd (sort_pairs mp) in
  let! m' := transpose_rows dbg m p in
  Ok (m', p).

(** coef_op_alg.h 444-453 *)
Definition sort_cols (dbg : bool) (m : opmat) : res (opmat * list nat) :=
  let! mp := for_loop 0 (cols m) (fun y acc => let! n := col_count m y in Ok (acc ++ [(n, y)])) [] in
  let p := map snd (sort_pairs mp) in
  let! m' := transpose_cols dbg m p in
  Ok (m', p).

(** One iteration of the loops at coef_op_alg.h 464-477 / 491-504.  State: the value returned early (if
    any), number of non-null elements seen, last coefficient. *)
Definition tc_step (nl : res bool) (e : res oprepr) (st : option coef * nat * coef)
  : res (option coef * nat * coef) :=
  match st with
  | (Some _, _, _) => Ok st
  | (None, n, rc) =>
      let! b := nl in
      if b then Ok st else
      let! o := e in
      let c := op_coef o in
      if n =? 0 then Ok (None, 1, c)
      else if coef_eq rc c then Ok (None, S n, c) else Ok (Some kId, S n, c)
  end.
Definition tc_result (st : option coef * nat * coef) : coef :=
  match st with (Some c, _, _) => c | (None, _, rc) => rc end.

(** coef_op_alg.h 460-479 *)
Definition try_catch_row (m : opmat) (r : nat) : res coef :=
  let! st := for_loop 0 (cols m) (fun y => tc_step (is_null m r y) (oget_ m r y)) (None, 0, kNull) in
  Ok (tc_result st).
(** coef_op_alg.h 487-506 *)
Definition try_catch_col (m : opmat) (c : nat) : res coef :=
  let! st := for_loop 0 (rows m) (fun x => tc_step (is_null m x c) (oget_ m x c)) (None, 0, kNull) in
  Ok (tc_result st).

(** coef_op_alg.h 508-515 *)
Definition remove_row_coef (m : opmat) (r : nat) : res opmat :=
  for_loop 0 (cols m) (fun y m' =>
    let! b := is_null m' r y in
    if b then Ok m' else
    let! e := oget_ m' r y in oset m' r y (snd (separate e))) m.
(** coef_op_alg.h 521-528 *)
Definition remove_col_coef (m : opmat) (c : nat) : res opmat :=
  for_loop 0 (rows m) (fun x m' =>
    let! b := is_null m' x c in
    if b then Ok m' else
    let! e := oget_ m' x c in oset m' x c (snd (separate e))) m.

(** equality of [std::vector<OpRepr>] *)
Fixpoint opvec_eq (a b : list oprepr) : bool :=
  match a, b with
  | [], [] => true
  | x :: a', y :: b' => op_eq x y && opvec_eq a' b'
  | _, _ => false
  end.

(** One iteration of coef_op_alg.h 594-612 / 621-641.  State: early return, possible overlaps. *)
Definition ov_step (nl : res bool) (tgt : res oprepr) (base : res oprepr) (st : option coef * list coef)
  : res (option coef * list coef) :=
  match st with
  | (Some _, _) => Ok st
  | (None, poss) =>
      let! b := nl in
      if b then Ok st else
      let! t := tgt in
      let! bs := base in
      let next :=
        if op_eq t bs then Some (poss ++ [kId])
        else let cb := separate t in
             if op_eq (snd cb) bs then Some (poss ++ [fst cb]) else None in
      match next with
      | None => Ok (Some kNull, poss)
      | Some poss' =>
          if (1 <? length poss') && negb (coef_eq (last poss' kNull) (hd kNull poss'))
          then Ok (Some kNull, poss') else Ok (None, poss')
      end
  end.
Definition ov_result (st : option coef * list coef) : coef :=
  match st with
  | (Some c, _) => c
  | (None, []) => kNull
  | (None, c :: _) => c
  end.

(** coef_op_alg.h 590-615 *)
Definition row_overlap (m : opmat) (row : list oprepr) (x : nat) : res coef :=
  let! st := for_loop 0 (cols m)
    (fun y => ov_step (is_null m x y) (vget row y) (oget_ m x y)) (None, []) in
  Ok (ov_result st).
(** coef_op_alg.h 617-644 *)
Definition col_overlap (m : opmat) (col : list oprepr) (y : nat) : res coef :=
  let! st := for_loop 0 (rows m)
    (fun x => ov_step (is_null m x y) (vget col x) (oget_ m x y)) (None, []) in
  Ok (ov_result st).

(** coef_op_alg.h 531-546 *)
Definition calc_row_lincmb (dbg : bool) (m : opmat) (r : nat) : res (list coef) :=
  let! row := get_row kNullOp dbg m r in
  let! found := for_loop 0 r (fun x f =>
     match f with
     | Some _ => Ok f
     | None => let! rx := get_row kNullOp dbg m x in Ok (if opvec_eq row rx then Some x else None)
     end) None in
  match found with
  | Some x => Ok (upd (repeat kNull r) x kId)
  | None => for_loop 0 r (fun x acc => let! c := row_overlap m row x in Ok (acc ++ [c])) []
  end.

(** coef_op_alg.h 548-556 *)
Definition calc_col_lincmb (dbg : bool) (m : opmat) (c : nat) : res (list coef) :=
  let! col := get_col kNullOp dbg m c in
  for_loop 0 c (fun y acc => let! k := col_overlap m col y in Ok (acc ++ [k])) [].

(** coef_op_alg.h 652-668 *)
Definition incomplete_multi (dbg : bool) (c : coef) (op : oprepr) : res oprepr :=
  if op_isnull op then Ok kNullOp
  else if coef_eq c kId then Ok op
  else if dbg && negb (forallb (fun kc => coef_eq (snd kc) kId) op) then Abort
  else Ok (set_coefs c op).

(** coef_op_alg.h 670-692 with 713-737: coefficient matrix times operator matrix.  (The [int] in which the
    index is kept at line 678 is not modelled.) *)
Definition coef_op_elem (dbg : bool) (a : coefmat) (b : opmat) (x y : nat) : res oprepr :=
  for_loop 0 (cols a) (fun i acc =>
    let! n1 := is_null a x i in
    let! n2 := is_null b i y in
    if n1 || n2 then Ok acc else
    let! c := cget a x i in
    let! o := oget_ b i y in
    let! p := incomplete_multi dbg c o in
    Ok (op_add acc p)) kNullOp.
Definition coef_op_mul (dbg : bool) (a : coefmat) (b : opmat) : res opmat :=
  let! _ := assert_ dbg (cols a =? rows b) in
  for_loop 0 (rows a) (fun x m =>
    for_loop 0 (cols b) (fun y m' =>
      let! e := coef_op_elem dbg a b x y in
      if op_isnull e then Ok m' else oset m' x y e) m) (mat_new (rows a) (cols b)).

(** coef_op_alg.h 694-710 with 740-751: operator matrix times coefficient matrix *)
Definition op_coef_elem (dbg : bool) (a : opmat) (b : coefmat) (x y : nat) : res oprepr :=
  for_loop 0 (cols a) (fun i acc =>
    let! n1 := is_null a x i in
    if n1 then Ok acc else
    let! n2 := is_null b i y in
    if n2 then Ok acc else
    let! c := cget b i y in
    let! o := oget_ a x i in
    let! p := incomplete_multi dbg c o in
    Ok (op_add acc p)) kNullOp.
Definition op_coef_mul (dbg : bool) (a : opmat) (b : coefmat) : res opmat :=
  let! _ := assert_ dbg (cols a =? rows b) in
  for_loop 0 (rows a) (fun x m =>
    for_loop 0 (cols b) (fun y m' =>
      let! e := op_coef_elem dbg a b x y in
      if op_isnull e then Ok m' else oset m' x y e) m) (mat_new (rows a) (cols b)).

(** coef_op_alg.h 774-780 / 803-808: an element with all coefficients replaced, asserting they are 1 *)
Definition scale_elem (dbg : bool) (c : coef) (e : oprepr) : res oprepr :=
  let! _ := assert_ dbg (forallb (fun kc => coef_eq (snd kc) kId) e) in
  Ok (set_coefs c e).

(** coef_op_alg.h 759-785 *)
Definition row_lincmb (dbg : bool) (m : opmat) (cmb : list coef) : res (list oprepr) :=
  let! _ := assert_ dbg (0 <? length cmb) in
  for_loop 0 (length cmb) (fun i v =>
    let! c := vget cmb i in
    let! row := get_row kNullOp dbg m i in
    if coef_eq c kId then
      for_loop 0 (cols m) (fun j w =>
        let! a := vget w j in let! e := vget row j in vset w j (op_add a e)) v
    else if coef_eq c kNull then Ok v
    else
      for_loop 0 (cols m) (fun j w =>
        let! e := vget row j in
        let! e' := scale_elem dbg c e in
        let! a := vget w j in vset w j (op_add a e')) v)
    (repeat kNullOp (cols m)).

(** coef_op_alg.h 788-813 *)
Definition col_lincmb (dbg : bool) (m : opmat) (cmb : list coef) : res (list oprepr) :=
  let! _ := assert_ dbg (0 <? length cmb) in
  for_loop 0 (length cmb) (fun i v =>
    let! c := vget cmb i in
    if coef_eq c kId then
      for_loop 0 (rows m) (fun j w =>
        let! a := vget w j in let! e := oget_ m j i in vset w j (op_add a e)) v
    else if coef_eq c kNull then Ok v
    else
      for_loop 0 (rows m) (fun j w =>
        let! e := oget_ m j i in
        let! e' := scale_elem dbg c e in
        let! a := vget w j in vset w j (op_add a e')) v)
    (repeat kNullOp (rows m)).

(** State of the delinearising loops: current index [i], number of deleted rows/columns, target, trans_mat. *)
Record dstate := mkD { d_i : nat; d_del : nat; d_tgt : opmat; d_tr : coefmat }.

(** Body of coef_op_alg.h 824-838.  Each iteration either advances [i] or deletes row [i], so the loop
    runs exactly [row_num - 1] times (with the initial [row_num]). *)
Definition row_delin_step (dbg : bool) (_ : nat) (s : dstate) : res dstate :=
  let i := d_i s in
  let! cmb := calc_row_lincmb dbg (d_tgt s) i in
  let! lc := row_lincmb dbg (d_tgt s) cmb in
  let! row := get_row kNullOp dbg (d_tgt s) i in
  if opvec_eq lc row then
    let! t' := remove_row dbg (d_tgt s) i in
    let! tr := remove_col dbg (d_tr s) (cols (d_tr s) - 1) in
    let! tr' := for_loop 0 i (fun j tm => let! c := vget cmb j in cset tm (i + d_del s) j c) tr in
    Ok (mkD i (S (d_del s)) t' tr')
  else
    let! tr' := cset (d_tr s) (i + d_del s) i kId in
    Ok (mkD (S i) (d_del s) (d_tgt s) tr').

(** coef_op_alg.h 815-844 *)
Definition row_delin (dbg : bool) (target follower : opmat) : res (opmat * opmat) :=
  let n := rows target in
  let! tr := cset (mat_new n n) 0 0 kId in
  let! s := for_loop 1 (n - 1) (row_delin_step dbg) (mkD 1 0 target tr) in
  if cols (d_tr s) <? rows (d_tr s)
  then let! f := op_coef_mul dbg follower (d_tr s) in Ok (d_tgt s, f)
  else Ok (d_tgt s, follower).

(** Body of coef_op_alg.h 857-872 *)
Definition col_delin_step (dbg : bool) (_ : nat) (s : dstate) : res dstate :=
  let i := d_i s in
  let! cmb := calc_col_lincmb dbg (d_tgt s) i in
  let! lc := col_lincmb dbg (d_tgt s) cmb in
  let! col := get_col kNullOp dbg (d_tgt s) i in
  if opvec_eq lc col then
    let! t' := remove_col dbg (d_tgt s) i in
    let! tr := remove_row dbg (d_tr s) (rows (d_tr s) - 1) in
    let! tr' := for_loop 0 i (fun j tm => let! c := vget cmb j in cset tm j (i + d_del s) c) tr in
    Ok (mkD i (S (d_del s)) t' tr')
  else
    let! tr' := cset (d_tr s) i (i + d_del s) kId in
    Ok (mkD (S i) (d_del s) (d_tgt s) tr').

(** coef_op_alg.h 849-878 *)
Definition col_delin (dbg : bool) (target follower : opmat) : res (opmat * opmat) :=
  let n := cols target in
  let! tr := cset (mat_new n n) 0 0 kId in
  let! s := for_loop 1 (n - 1) (col_delin_step dbg) (mkD 1 0 target tr) in
  if rows (d_tr s) <? cols (d_tr s)
  then let! f := coef_op_mul dbg (d_tr s) follower in Ok (d_tgt s, f)
  else Ok (d_tgt s, follower).

(** State of the separation loops: target, diagonal matrix, need_separate flag. *)
Definition sep_body (tc : opmat -> nat -> res coef) (rc : opmat -> nat -> res opmat)
  (k : nat) (s : opmat * coefmat * bool) : res (opmat * coefmat * bool) :=
  match s with
  | (t, d, need) =>
      let! c := tc t k in
      let! d' := cset d k k (if negb (coef_eq c kNull) then c else kId) in
      if negb (coef_eq c kNull) && negb (coef_eq c kId)
      then let! t' := rc t k in Ok (t', d', true)
      else Ok (t, d', need)
  end.

(** coef_op_alg.h 881-910 *)
Definition row_compress (dbg : bool) (target follower : opmat) : res (opmat * opmat) :=
  let! _ := assert_ dbg (rows target =? cols follower) in
  let n := rows target in
  if n =? 1 then Ok (target, follower) else
  let! (t1, p) := sort_rows dbg target in
  let! f1 := transpose_cols dbg follower p in
  let! (t2, d, need) := for_loop 0 n (sep_body try_catch_row remove_row_coef) (t1, mat_new n n, false) in
  let! f2 := (if need then op_coef_mul dbg f1 d else Ok f1) in
  row_delin dbg t2 f2.

(** coef_op_alg.h 920-950 *)
Definition col_compress (dbg : bool) (target follower : opmat) : res (opmat * opmat) :=
  let! _ := assert_ dbg (cols target =? rows follower) in
  let n := cols target in
  if n =? 1 then Ok (target, follower) else
  let! (t1, p) := sort_cols dbg target in
  let! f1 := transpose_rows dbg follower p in
  let! (t2, d, need) := for_loop 0 n (sep_body try_catch_col remove_col_coef) (t1, mat_new n n, false) in
  let! f2 := (if need then coef_op_mul dbg d f1 else Ok f1) in
  col_delin dbg t2 f2.
