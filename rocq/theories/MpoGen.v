(** Model of the MPO generator: one_dim_tn/mpo/mpogen/mpogen.h, mpogen_impl.h and the label convertor of fsm.h.

    Tensor elements are elements of an arbitrary commutative ring with decidable equality (the code uses
    floating point numbers; rounding is not modelled).  A local operator is the identity of its physical index
    and its matrix; its entries are listed in storage order. *)
From Coq Require Import List Arith Lia Bool.
From Verif Require Import Base SparMat CoefOp Fsm.
Import ListNotations.

(** *** Label convertor: fsm.h 306-341.  [std::find] returns the first equal entry. *)
Fixpoint find_idx {A} (f : A -> bool) (l : list A) : option nat :=
  match l with
  | [] => None
  | a :: t => if f a then Some 0 else option_map S (find_idx f t)
  end.
(** fsm.h 319-337 (the debug warning is omitted) *)
Definition convert {A} (eqb : A -> A -> bool) (hub : list A) (x : A) : list A * nat :=
  match find_idx (fun y => eqb y x) hub with
  | Some k => (hub, k)
  | None => (hub ++ [x], length hub)
  end.

(** Local operator: [lo_ix] identifies the physical index, [lo_dat] are the matrix elements row by row. *)
Record lop (R : Type) := mkLop { lo_ix : nat; lo_dat : list (list R) }.
Arguments mkLop {R}. Arguments lo_ix {R}. Arguments lo_dat {R}.

Fixpoint leqb {A} (eqb : A -> A -> bool) (a b : list A) : bool :=
  match a, b with
  | [], [] => true
  | x :: a', y :: b' => eqb x y && leqb eqb a' b'
  | _, _ => false
  end.

(** stable insertion sort by site; [std::sort] may order entries of equal sites differently *)
Fixpoint insert_site {A} (p : A * nat) (l : list (A * nat)) : list (A * nat) :=
  match l with
  | [] => [p]
  | q :: t => if snd p <=? snd q then p :: l else q :: insert_site p t
  end.
Definition sort_sites {A} (l : list (A * nat)) : list (A * nat) := fold_right insert_site [] l.
(** [std::is_sorted] *)
Fixpoint is_sorted (l : list nat) : bool :=
  match l with
  | a :: ((b :: _) as t) => (a <=? b) && is_sorted t
  | _ => true
  end.

Section Gen.
Variables (R : Type) (r0 r1 : R) (ropp : R -> R) (reqb : R -> R -> bool).
(** [isneg x]: Real(x) < 0.  [small x]: abs(x) < kDoubleEpsilon. *)
Variables (isneg small : R -> bool).

(** [QLTensor::operator==] and unary minus (qlten, outside the repository) *)
Definition lop_eqb (a b : lop R) : bool := (lo_ix a =? lo_ix b) && leqb (leqb reqb) (lo_dat a) (lo_dat b).
Definition lop_neg (a : lop R) : lop R := mkLop (lo_ix a) (map (map ropp) (lo_dat a)).
(** [QLTensor::GetFirstNonZeroElement] *)
Definition first_nz (a : lop R) : R :=
  match find (fun x => negb (reqb x r0)) (concat (lo_dat a)) with Some x => x | None => r0 end.

(** mpogen.h 82-91 *)
Record gen := mkGen {
  g_n : nat;                 (* N_ *)
  g_sites : list nat;        (* site_vec_.sites: identities of the physical indexes *)
  g_idops : list (lop R);    (* id_op_vector_ *)
  g_ch : list R;             (* coef_label_convertor_ *)
  g_oh : list (lop R);       (* op_label_convertor_ *)
  g_fsm : fsm                (* fsm_ *)
}.

(** mpogen_impl.h 38-48: GenIdOpReprs *)
Definition gen_id_reprs (idops : list (lop R)) : list (lop R) * list oprepr :=
  fold_left (fun st o => let (hub, l) := convert lop_eqb (fst st) o in (hub, snd st ++ [op_of_label l]))
    idops ([], []).

(** mpogen_impl.h 62-79 *)
Definition gen_new (sites : list nat) (idops : list (lop R)) : gen :=
  let n := length sites in
  let (oh, ids) := gen_id_reprs idops in
  mkGen n sites idops [r1] oh (fsm_new n ids).

(** mpogen_impl.h 128-135: sign normalisation *)
Definition norm_step (st : R * list (lop R)) (o : lop R) : R * list (lop R) :=
  if isneg (first_nz o) then (ropp (fst st), snd st ++ [lop_neg o]) else (fst st, snd st ++ [o]).
Definition norm_ops (c : R) (ops : list (lop R)) : R * list (lop R) := fold_left norm_step ops (c, []).

(** mpogen_impl.h 90-162: the generic AddTerm *)
Definition add_term (dbg : bool) (g : gen) (c : R) (ops : list (lop R)) (idxs : list nat) : res gen :=
  let! _ := assert_ dbg (length ops =? length idxs) in
  if reqb c r0 then Ok g else
  if small c then Ok g else
  (* 102-108, debug builds only *)
  let! _ := (if dbg
     then for_loop 0 (length ops) (fun i u =>
            let! o := vget ops i in let! s := vget idxs i in let! ix := vget (g_sites g) s in
            assert_ true (ix =? lo_ix o)) tt
     else Ok tt) in
  (* 110-124; lists of different lengths are read out of range when sorting is needed *)
  let! (ops, idxs) :=
    (if is_sorted idxs then Ok (ops, idxs)
     else if negb (length ops =? length idxs) then Ub
     else let s := sort_sites (combine ops idxs) in Ok (map fst s, map snd s)) in
  match idxs with
  | [] => Ub                                   (* back() of an empty vector *)
  | head :: _ =>
    let tail := last idxs 0 in
    let! _ := assert_ dbg (tail <? g_n g) in
    let (c', ops') := norm_ops c ops in
    let (ch, cl) := convert reqb (g_ch g) c' in
    let! (oh, reprs) := for_loop head (tail + 1 - head) (fun i st =>
       match find_idx (Nat.eqb i) idxs with
       | Some k =>
           let! o := vget ops' k in
           let (hub, l) := convert lop_eqb (fst st) o in
           Ok (hub, snd st ++ [if k =? 0 then op_of_coef_label [cl] l else op_of_label l])
       | None =>
           let! o := vget (g_idops g) i in
           let (hub, l) := convert lop_eqb (fst st) o in
           Ok (hub, snd st ++ [op_of_label l])
       end) (g_oh g, []) in
    let! _ := assert_ dbg (length reprs =? tail - head + 1) in
    let! f := add_path dbg (g_fsm g) head tail reprs in
    Ok (mkGen (g_n g) (g_sites g) (g_idops g) ch oh f)
  end.

(** mpogen_impl.h 182-237: physical and insertion operators.  [inst_idxs = []] is kNullUintVecVec. *)
Definition inst_piece (inst : lop R) (sites : list nat) : list (lop R * nat) := map (fun j => (inst, j)) sites.
Definition add_term_inst (dbg : bool) (g : gen) (c : R) (phys : list (lop R)) (pidx : list nat)
  (inst : list (lop R)) (inst_idxs : list (list nat)) : res gen :=
  let! _ := assert_ dbg (2 <=? length phys) in
  let! _ := assert_ dbg (length phys =? length pidx) in
  let! _ := assert_ dbg ((length inst =? length phys - 1) || (length inst =? length phys)) in
  let! _ := assert_ dbg (match inst_idxs with [] => true | _ => length inst_idxs =? length inst end) in
  if length phys =? 0 then Ub else             (* phys_ops.size() - 1 wraps *)
  let! body := for_loop 0 (length phys - 1) (fun i acc =>
     let! p := vget phys i in
     let! a := vget pidx i in
     match inst_idxs with
     | [] =>
         let! b := vget pidx (i + 1) in
         if a + 1 <? b then
           let! o := vget inst i in Ok (acc ++ (p, a) :: inst_piece o (seq (a + 1) (b - (a + 1))))
         else Ok (acc ++ [(p, a)])
     | _ =>
         let! js := vget inst_idxs i in
         match js with
         | [] => Ok (acc ++ [(p, a)])
         | _ => let! o := vget inst i in Ok (acc ++ (p, a) :: inst_piece o js)
         end
     end) [] in
  let! p := vget phys (length phys - 1) in
  let! a := (match pidx with [] => Ub | _ => Ok (last pidx 0) end) in
  let! tail :=
    (if length inst =? length phys then
       let! o := vget inst (length inst - 1) in
       match inst_idxs with
       | [] => Ok (inst_piece o (seq a (g_n g - a)))      (* the loop starts at phys_ops_idxs.back() itself *)
       | _ => let! js := vget inst_idxs (length inst_idxs - 1) in Ok (inst_piece o js)
       end
     else Ok []) in
  let l := body ++ (p, a) :: tail in
  add_term dbg g c (map fst l) (map snd l).

(** mpogen_impl.h 253-285: one- and two-body terms; [None] is the default tensor *)
Definition add_term2 (dbg : bool) (g : gen) (c : R) (op1 : lop R) (i1 : nat) (op2 : option (lop R)) (i2 : nat)
  (inst : option (lop R)) (inst_idxs : list nat) : res gen :=
  match op2 with
  | None => add_term dbg g c [op1] [i1]
  | Some op2 =>
      let! _ := assert_ dbg (negb (i2 =? 0)) in
      match inst with
      | None => add_term dbg g c [op1; op2] [i1; i2]
      | Some f =>
          match inst_idxs with
          | [] => let! _ := assert_ dbg (i1 <? i2) in add_term_inst dbg g c [op1; op2] [i1; i2] [f] []
          | _ => add_term_inst dbg g c [op1; op2] [i1; i2] [f] [inst_idxs]
          end
      end
  end.
End Gen.

Arguments g_n {R}. Arguments g_sites {R}. Arguments g_idops {R}. Arguments g_ch {R}. Arguments g_oh {R}.
Arguments g_fsm {R}. Arguments mkGen {R}.
