(** The sites of a system: site_vec.h.  Indices are a direction and sectors (quantum number, degeneracy) as in the tensor library. *)
From Coq Require Import List Arith Bool.
From Verif Require Import Base.
Import ListNotations.
Local Open Scope nat_scope.

Inductive dir : Type := IN | OUT.
Section Sites.
Variables (Q A : Type).                       (* quantum numbers, elements *)
Variables (qz : Q) (qadd : Q -> Q -> Q) (qneg : Q -> Q) (qeqb : Q -> Q -> bool).
Variables (a0 a1 : A).
Variable dbg : bool.
Definition index : Type := dir * list (Q * nat).
(** Index::dim, GetQNSct by position *)
Fixpoint sdim (l : list (Q * nat)) : nat := match l with [] => 0 | (_, d) :: l => d + sdim l end.
Definition idim (x : index) : nat := sdim (snd x).
Fixpoint qn_at (l : list (Q * nat)) (i : nat) : option Q := match l with [] => None | (q, d) :: l => if i <? d then Some q else qn_at l (i - d) end.
(** InverseIndex: only the direction changes *)
Definition flip (d : dir) : dir := match d with IN => OUT | OUT => IN end.
Definition inverse (x : index) : index := (flip (fst x), snd x).
(** SetIndexDirOut, 30-37 *)
Definition set_out (x : index) : index := match fst x with OUT => x | _ => inverse x end.
(** a tensor with two legs: its elements and, once it has a block, the divergence of its blocks.  Writing an element makes its block;
    a block with another divergence is refused by the library *)
Record ten2 : Type := mkT { t_legs : index * index; t_div : option Q; t_el : nat -> nat -> A }.
Definition empty2 (x y : index) : ten2 := mkT (x, y) None (fun _ _ => a0).
Definition leg_qn (x : index) (i : nat) : option Q := option_map (match fst x with OUT => fun q => q | IN => qneg end) (qn_at (snd x) i).
Definition write2 (i j : nat) (v : A) (t : ten2) : res ten2 :=
  match leg_qn (fst (t_legs t)) i, leg_qn (snd (t_legs t)) j with
  | Some p, Some q =>
      let new := mkT (t_legs t) (Some (qadd p q)) (fun k l => if (k =? i) && (l =? j) then v else t_el t k l) in
      match t_div t with None => Ok new | Some d => if qeqb d (qadd p q) then Ok new else Abort end
  | _, _ => Ub
  end.
(** GenIdOp, 39-45 *)
Definition gen_id (x : index) : res ten2 := for_loop 0 (idim x) (fun i t => write2 i i a1 t) (empty2 (inverse x) x).
Record site_vec : Type := mkSV { sv_size : nat; sv_sites : list index; sv_ids : list ten2 }.
(** GenIdOpsVec_, 140-146 *)
Definition gen_ids (size : nat) (sites : list index) : res (list ten2) :=
  for_loop 0 size (fun i l => let! x := vget sites i in let! t := gen_id x in Ok (l ++ [t])) [].
(** the constructors, 67-73 and 82-90 *)
Definition sv_uniform (N : nat) (x : index) : res site_vec :=
  let! _ := assert_ dbg (0 <? N) in
  let s := repeat (set_out x) N in let! ids := gen_ids N s in Ok (mkSV N s ids).
Definition sv_of (l : list index) : res site_vec :=
  let! _ := assert_ dbg (0 <? length l) in
  let! s := for_loop 0 (length l) (fun i s => let! x := vget l i in Ok (s ++ [set_out x])) [] in
  let! ids := gen_ids (length l) s in Ok (mkSV (length l) s ids).
(** copy and assignment, 99-114: field by field *)
Definition sv_copy (s : site_vec) : site_vec := mkSV (sv_size s) (sv_sites s) (sv_ids s).
(** operator==, 121-123 *)
Definition dir_eqb (a b : dir) : bool := match a, b with IN, IN => true | OUT, OUT => true | _, _ => false end.
Fixpoint sct_eqb (a b : list (Q * nat)) : bool :=
  match a, b with [], [] => true | (p, m) :: a, (q, n) :: b => qeqb p q && (m =? n) && sct_eqb a b | _, _ => false end.
Definition index_eqb (x y : index) : bool := dir_eqb (fst x) (fst y) && sct_eqb (snd x) (snd y).
Fixpoint sites_eqb (a b : list index) : bool := match a, b with [], [] => true | x :: a, y :: b => index_eqb x y && sites_eqb a b | _, _ => false end.
Definition sv_eqb (a b : site_vec) : bool := sites_eqb (sv_sites a) (sv_sites b).
End Sites.
