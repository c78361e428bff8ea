(** Model of the finite state machine of the MPO generator: one_dim_tn/mpo/mpogen/fsm.h *)
From Coq Require Import List Arith Lia Bool.
From Verif Require Import Base SparMat CoefOp.
Import ListNotations.

(** State index of an FSM node (fsm.h 169-171): ready is 0, final is -1, intermediate states are 1, 2, ... *)
Inductive stat := Ready | Final | Mid (k : nat).

(** fsm.h 82-106.  [fsm_site_idx] of node [i] is always [i], so only the state is kept. *)
Record path := mkPath { p_nodes : list stat; p_ops : list oprepr }.

(** fsm.h 159-166 *)
Record fsm := mkFsm {
  f_n : nat;                 (* phys_site_num_ *)
  f_mid : list nat;          (* mid_stat_nums_ *)
  f_ready : list bool;       (* has_readys_ *)
  f_final : list bool;       (* has_finals_ *)
  f_paths : list path;       (* fsm_paths_ *)
  f_id : list oprepr         (* id_ops_ *)
}.

(** fsm.h 112-121 *)
Definition fsm_new (n : nat) (ids : list oprepr) : fsm :=
  mkFsm n (repeat 0 (n + 1)) (repeat false (n + 1)) (repeat false (n + 1)) [] ids.

(** The node loop of fsm.h 190-206: iteration [i] sets node [i + 1]. *)
Definition add_node (head tail i : nat) (st : list stat * list nat * list bool * list bool)
  : res (list stat * list nat * list bool * list bool) :=
  match st with
  | (nodes, mid, rd, fi) =>
      if i <? head then
        let! rd' := vset rd (i + 1) true in Ok (nodes ++ [Ready], mid, rd', fi)
      else if tail <=? i then
        let! fi' := vset fi (i + 1) true in Ok (nodes ++ [Final], mid, rd, fi')
      else
        let! k := vget mid (i + 1) in
        let! mid' := vset mid (i + 1) (S k) in Ok (nodes ++ [Mid (S k)], mid', rd, fi)
  end.

(** fsm.h 173-208 *)
Definition add_path (dbg : bool) (f : fsm) (head tail : nat) (ops : list oprepr) : res fsm :=
  let! _ := assert_ dbg (head + length ops =? tail + 1) in
  let! pops := for_loop 0 (f_n f) (fun i acc =>
     let! o := (if (i <? head) || (tail <? i) then vget (f_id f) i else vget ops (i - head)) in
     Ok (acc ++ [o])) [] in
  let! rd := vset (f_ready f) 0 true in
  let! (nodes, mid, rd', fi) :=
    for_loop 0 (f_n f) (add_node head tail) ([Ready], f_mid f, rd, f_final f) in
  Ok (mkFsm (f_n f) mid rd' fi (f_paths f ++ [mkPath nodes pops]) (f_id f)).

(** fsm.h 225-234 *)
Definition site_dims (f : fsm) : res (list nat) :=
  for_loop 0 (f_n f + 1) (fun i acc =>
    let! m := vget (f_mid f) i in
    let! r := vget (f_ready f) i in
    let! fi := vget (f_final f) i in
    Ok (acc ++ [m + (if r then 1 else 0) + (if fi then 1 else 0)])) [].

(** fsm.h 236-249; -1 is [None] *)
Definition final_idxs (f : fsm) (dims : list nat) : res (list (option nat)) :=
  for_loop 0 (f_n f + 1) (fun i acc =>
    let! fi := vget (f_final f) i in
    let! r := vget (f_ready f) i in
    let! d := vget dims i in
    Ok (acc ++ [if fi then Some (if r then d - 1 else 0) else None])) [].

(** fsm.h 261-267 / 268-274: matrix index of a state.  A final state whose index is -1 gives a huge
    [size_t], hence undefined behaviour; so does "state - 1" for the ready state. *)
Definition stat_index (f : fsm) (fidx : list (option nat)) (i : nat) (s : stat) : res nat :=
  match s with
  | Final => let! o := vget fidx i in match o with Some k => Ok k | None => Ub end
  | _ =>
      let k := match s with Mid k => k | _ => 0 end in
      let! r := vget (f_ready f) i in
      let! fi := vget (f_final f) i in
      if negb r && negb fi then (if k =? 0 then Ub else Ok (k - 1)) else Ok k
  end.

(** fsm.h 276-283 *)
Definition cast_elem (m : opmat) (r c : nat) (op : oprepr) : res opmat :=
  let! e := oget_ m r c in
  if op_isnull e then oset m r c op
  else if negb (op_eq e op) then oset m r c (op_add e op)
  else Ok m.

(** fsm.h 251-285 *)
Definition cast_path (f : fsm) (fidx : list (option nat)) (ms : list opmat) (p : path) : res (list opmat) :=
  for_loop 0 (f_n f) (fun i ms' =>
    let! rs := vget (p_nodes p) i in
    let! cs := vget (p_nodes p) (i + 1) in
    let! op := vget (p_ops p) i in
    let! r := stat_index f fidx i rs in
    let! c := stat_index f fidx (i + 1) cs in
    let! m := vget ms' i in
    let! m' := cast_elem m r c op in
    vset ms' i m') ms.

(** fsm.h 210-223 *)
Definition gen_mat_repr (f : fsm) : res (list opmat) :=
  let! dims := site_dims f in
  let! fidx := final_idxs f dims in
  let! ms := for_loop 0 (f_n f) (fun i acc =>
    let! r := vget dims i in let! c := vget dims (i + 1) in Ok (acc ++ [mat_new r c])) [] in
  for_each (f_paths f) (fun p ms' => cast_path f fidx ms' p) ms.

(** The two compression sweeps of fsm.h 289-294 on the vector of matrices. *)
Definition compress_lr (dbg : bool) (i : nat) (ms : list opmat) : res (list opmat) :=
  let! t := vget ms i in
  let! f := vget ms (i + 1) in
  let! (t', f') := col_compress dbg t f in
  let! ms1 := vset ms i t' in
  vset ms1 (i + 1) f'.
(** iteration [k] of the second loop has [i = n - 1 - k] *)
Definition compress_rl (dbg : bool) (n k : nat) (ms : list opmat) : res (list opmat) :=
  let i := n - 1 - k in
  let! t := vget ms i in
  let! f := vget ms (i - 1) in
  let! (t', f') := row_compress dbg t f in
  let! ms1 := vset ms i t' in
  vset ms1 (i - 1) f'.
Definition compress_chain (dbg : bool) (n : nat) (ms : list opmat) : res (list opmat) :=
  let! ms1 := for_loop 0 (n - 1) (compress_lr dbg) ms in
  for_loop 0 (n - 1) (compress_rl dbg n) ms1.

(** fsm.h 287-303.  For [phys_site_num_ = 0] the bound [phys_site_num_ - 1] wraps. *)
Definition gen_compressed (dbg : bool) (f : fsm) : res (list opmat) :=
  let! ms := gen_mat_repr f in
  if f_n f =? 0 then Ub else compress_chain dbg (f_n f) ms.
