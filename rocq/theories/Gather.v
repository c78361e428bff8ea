(** The other exchanges of the distributed DMRG: the multiplications with the operators that the workers keep, collecting the grown block
    operators, and the right block operators at the start when there are not more operators than workers. *)
From Coq Require Import List Arith Bool.
From Verif Require Import Mpi Farm Farm2.
Import ListNotations.

(** 10085, 10087: the tags of lanczos_dmrg_solver_mpi_master.h 272, 284 *)
Definition tag_sum : nat := 100 * 100 + 85.
Definition tag_ovl : nat := 100 * 100 + 87.

(** ** lanczos_dmrg_solver_mpi_master.h 250-285, dmrg_mpi_impl_slave.h 406-479: every worker sends the sum over its operators, then the overlap *)
Section Static.
Variables X R : Type.
Variables (r0 : R) (radd : R -> R -> R).
Variables (W : nat) (sub : nat -> X) (ov : nat -> R).     (* of worker w *)
Inductive sval : Type := STen (x : X) | SNum (r : R).
Inductive locs : Type :=
  | SSum (i : nat) (xs : list X)
  | SOvl (i : nat) (xs : list X) (acc : R)
  | SDone (xs : list X) (acc : R)
  | SOut (ms : list (nat * sval))                         (* a worker that still has to send ms *)
  | SBad.
Definition sovl (i : nat) xs acc : locs := if i <? W then SOvl i xs acc else SDone xs acc.
Definition ssum (i : nat) xs : locs := if i <? W then SSum i xs else sovl 0 xs r0.
Definition sprog (p : nat) (l : locs) : act locs sval :=
  if p =? 0 then
    match l with
    | SSum i xs => ARecv None (Some tag_sum) (fun _ _ v => match v with STen x => ssum (i + 1) (xs ++ [x]) | _ => SBad end)
    | SOvl i xs acc => ARecv None (Some tag_ovl) (fun _ _ v => match v with SNum r => sovl (i + 1) xs (radd acc r) | _ => SBad end)
    | _ => AHalt
    end
  else match l with SOut (m :: ms) => ASend 0 (fst m) (snd m) (SOut ms) | _ => AHalt end.
Definition sinit (p : nat) : locs := if p =? 0 then ssum 0 [] else SOut [(tag_sum, STen (sub p)); (tag_ovl, SNum (ov p))].
End Static.
Arguments STen {X R} _. Arguments SNum {X R} _. Arguments SSum {X R} _ _. Arguments SOvl {X R} _ _ _. Arguments SDone {X R} _ _. Arguments SOut {X R} _. Arguments SBad {X R}.
(** the sum of a worker: [mul t] for the tasks in its table; a zero tensor if it has none *)
Definition sub_sum {X : Type} (x0 : X) (xadd : X -> X -> X) (mul : nat -> X) (table : list nat) : X :=
  match table with [] => x0 | t :: ts => fold_left xadd (map mul ts) (mul t) end.

(** ** dmrg_mpi_impl_master.h 641-668, dmrg_mpi_impl_slave.h 482-509: every worker sends, for each of its operators, the number and the tensor *)
Section Grow.
Variable X : Type.
Variables (W M : nat) (op : nat -> X) (table : nat -> list nat).
Inductive lock : Type :=
  | KOrd (i : nat) (rs : list (nat * X))                  (* MPI_Recv(op_order, MPI_ANY_SOURCE, MPI_ANY_TAG) *)
  | KTen (i : nat) (rs : list (nat * X)) (w o : nat)      (* [op_order].MPI_Recv(worker, worker) *)
  | KDone (rs : list (nat * X))
  | KOut (ms : list (nat * gval X))
  | KBad.
Definition kround (i : nat) rs : lock := if i <? M then KOrd i rs else KDone rs.
Definition kstream (w : nat) (ts : list nat) : list (nat * gval X) := flat_map (fun t => [(w, GNat t); (w, GTen (op t))]) ts.
Definition kprog (p : nat) (l : lock) : act lock (gval X) :=
  if p =? 0 then
    match l with
    | KOrd i rs => ARecv None None (fun s _ v => match v with GNat o => if o <? M then KTen i rs s o else KBad | _ => KBad end)
    | KTen i rs w o => ARecv (Some w) (Some w) (fun _ _ v => match v with GTen x => kround (i + 1) (rs ++ [(o, x)]) | _ => KBad end)
    | _ => AHalt
    end
  else match l with KOut (m :: ms) => ASend 0 (fst m) (snd m) (KOut ms) | _ => AHalt end.
Definition kinit (p : nat) : lock := if p =? 0 then kround 0 [] else KOut (kstream p (table p)).
End Grow.
Arguments KOrd {X} _ _. Arguments KTen {X} _ _ _ _. Arguments KDone {X} _. Arguments KOut {X} _. Arguments KBad {X}.

(** ** dmrg_mpi_impl_master.h 496-509, dmrg_mpi_impl_slave.h 141-171: operator i is computed by worker i + 1 *)
Section Few.
Variable X : Type.
Variables (W T : nat) (msgs : nat -> nat -> list (nat * gval X)) (h : list (gval X) -> X) (ng : nat).
Inductive loci : Type :=
  | IStr (i : nat) (ms : list (nat * gval X))
  | IRecv (i : nat) (rs : list (nat * X))                 (* rog_next[i].MPI_Recv(i + 1, i) *)
  | IDone (rs : list (nat * X))
  | JGet (got : list (gval X))
  | JRes (x : X)
  | JDone
  | JBad.
Definition irecv (i : nat) rs : loci := if i <? T then IRecv i rs else IDone rs.
Definition istr (i : nat) : loci := if i <? T then IStr i (msgs (i + 1) i) else irecv 0 [].
Definition iprog (p : nat) (l : loci) : act loci (gval X) :=
  if p =? 0 then
    match l with
    | IStr i (m :: ms) => ASend (i + 1) (fst m) (snd m) (match ms with [] => istr (i + 1) | _ => IStr i ms end)
    | IRecv i rs => ARecv (Some (i + 1)) (Some i) (fun _ _ v => match v with GTen x => irecv (i + 1) (rs ++ [(i, x)]) | _ => JBad end)
    | _ => AHalt
    end
  else
    match l with
    | JGet got => match want ng p got with
        | Some tag => ARecv (Some 0) (Some tag) (fun _ _ v => match want ng p (got ++ [v]) with Some _ => JGet (got ++ [v]) | None => JRes (h (got ++ [v])) end)
        | None => AHalt
        end
    | JRes x => ASend 0 (p - 1) (GTen x) JDone
    | _ => AHalt
    end.
Definition iinit (p : nat) : loci := if p =? 0 then istr 0 else if p <=? T then JGet [] else JDone.
End Few.
Arguments IStr {X} _ _. Arguments IRecv {X} _ _. Arguments IDone {X} _. Arguments JGet {X} _. Arguments JRes {X} _. Arguments JDone {X}. Arguments JBad {X}.
