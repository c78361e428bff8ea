(** Disk-based sweeps as straight-line programs.

    The sweeping algorithms of qlmps keep the MPS tensors and the environment tensors on disk and hold only a few of them in
    memory.  Which files they read and write never depends on tensor values, so each of them is a list of the instructions below.
    A crash point is a prefix of that list.

    What the contractions compute is a parameter:
    - [T] tensors, [E] environments (or groups of block operators), [En] energies;
    - [triv s]: the trivial environment at the end of the chain on side [s].  (It depends only on the outermost bond indexes of the
      MPS, which no update changes; the model takes it as a constant.)
    - [grow s i e t]: UpdateSiteLenvs / UpdateSiteRenvs with site i;
    - [solve rt i l a b r]: Lanczos and SVD on sites i, i+1 between environments l and r.
    MPS memory: FiniteMPS of size [nm]; slots hold a tensor or null.  Files: one map per kind, keyed by index (the names are
    different by C45).  A truncated file after a crash inside a write is not modelled: crashes fall between instructions. *)
From Coq Require Import List Arith Lia Bool.
From Verif Require Import Base.
Import ListNotations.

Definition fset {A} (f : nat -> A) (i : nat) (x : A) : nat -> A := fun j => if j =? i then x else f j.
Definition fnone {A} : nat -> option A := fun _ => None.
Inductive side : Type := L | R.

Section Disk.
Variables T E En : Type.
Variable dT : T.    (* default constructed tensors: what non-const operator[] puts into an empty slot *)
Variable dE : E.
Variable triv : side -> E.
Variable grow : side -> nat -> E -> T -> E.
Variable solve : bool -> nat -> E -> T -> T -> E -> T * T * En.
(** FiniteMPS::LeftCanonicalizeTen(i) on sites i, i+1; RightCanonicalizeTen(i) on sites i-1, i (finite_mps.h 265-300) *)
Variable canoL : T -> T -> T * T.
Variable canoR : T -> T -> T * T.

Record world : Type := mkW {
  nm : nat; mm : nat -> option T;                              (* the MPS object *)
  ne : nat; le : nat -> option E; re : nat -> option E;        (* lenvs and renvs of the running sweep *)
  acc : option E;                                              (* local variable lenv / renv *)
  eng : option En;                                             (* e0; None = not initialised *)
  dm : nat -> option T; dl : nat -> option E; dr : nat -> option E; tmp : bool }. (* files *)

Inductive instr : Type :=
| Mkdir                            (* CreatPath(temp_path) *)
| LoadM (i : nat)                  (* mps.LoadTen(i, file): throws when the file cannot be read (ten_vec.h) *)
| DumpM (i : nat) (rel : bool)     (* mps.DumpTen(i, file, release) *)
| FreeM (i : nat)                  (* mps.dealloc(i) *)
| EmptyM                           (* assert(mps.empty()) *)
| NewEnvs (n : nat)                (* TenVec lenvs(n), renvs(n) *)
| LoadE (s : side) (len : nat)     (* lenvs.LoadTen / renvs.LoadTen *)
| DumpE (s : side) (len : nat)     (* lenvs.DumpTen / renvs.DumpTen, the memory is kept *)
| FreeE (s : side) (len : nat)
| RmE (s : side) (len : nat)       (* RemoveFile: a missing file only prints a message *)
| SetAcc (s : side) (i : nat)      (* trivial environment built from the outer bond of site i *)
| GrowAcc (s : side) (i : nat)
| WriteAcc (s : side) (len : nat)
| Upd2 (rt : bool) (l : nat)    (* local update of sites l, l+1 moving right or left; it also grows the next environment *)
| CanoL (i : nat) | CanoR (i : nat).

Definition le_ (s : side) (w : world) : nat -> option E := match s with L => le w | R => re w end.
Definition de_ (s : side) (w : world) : nat -> option E := match s with L => dl w | R => dr w end.
Definition set_mm (m : nat -> option T) (w : world) := mkW (nm w) m (ne w) (le w) (re w) (acc w) (eng w) (dm w) (dl w) (dr w) (tmp w).
Definition set_dm (m : nat -> option T) (w : world) := mkW (nm w) (mm w) (ne w) (le w) (re w) (acc w) (eng w) m (dl w) (dr w) (tmp w).
Definition set_e (s : side) (e : nat -> option E) (w : world) :=
  match s with
  | L => mkW (nm w) (mm w) (ne w) e (re w) (acc w) (eng w) (dm w) (dl w) (dr w) (tmp w)
  | R => mkW (nm w) (mm w) (ne w) (le w) e (acc w) (eng w) (dm w) (dl w) (dr w) (tmp w)
  end.
Definition set_de (s : side) (e : nat -> option E) (w : world) :=
  match s with
  | L => mkW (nm w) (mm w) (ne w) (le w) (re w) (acc w) (eng w) (dm w) e (dr w) (tmp w)
  | R => mkW (nm w) (mm w) (ne w) (le w) (re w) (acc w) (eng w) (dm w) (dl w) e (tmp w)
  end.
Definition set_acc (a : option E) (w : world) := mkW (nm w) (mm w) (ne w) (le w) (re w) a (eng w) (dm w) (dl w) (dr w) (tmp w).
Definition set_eng (x : option En) (w : world) := mkW (nm w) (mm w) (ne w) (le w) (re w) (acc w) x (dm w) (dl w) (dr w) (tmp w).
Definition set_tmp (b : bool) (w : world) := mkW (nm w) (mm w) (ne w) (le w) (re w) (acc w) (eng w) (dm w) (dl w) (dr w) b.

(** a tensor that a contraction reads: a null pointer, or the default tensor operator[] would put there, cannot be contracted *)
Definition use {A} (o : option A) : res A := match o with Some x => Ok x | None => Ub end.
Definition getM (i : nat) (w : world) : res T := if i <? nm w then use (mm w i) else Ub.
Definition putM (i : nat) (t : T) (w : world) : res world := if i <? nm w then Ok (set_mm (fset (mm w) i (Some t)) w) else Ub.
Definition getE (s : side) (i : nat) (w : world) : res E := if i <? ne w then use (le_ s w i) else Ub.
Definition putE (s : side) (i : nat) (e : E) (w : world) : res world := if i <? ne w then Ok (set_e s (fset (le_ s w) i (Some e)) w) else Ub.
Definition isnull {A} (o : option A) : bool := match o with None => true | Some _ => false end.
Definition orelse {A} (d : A) (o : option A) : A := match o with Some x => x | None => d end.

Definition exec1 (dbg : bool) (c : instr) (w : world) : res world :=
  match c with
  | Mkdir => Ok (set_tmp true w)
  | LoadM i => if i <? nm w then match dm w i with Some t => Ok (set_mm (fset (mm w) i (Some t)) w) | None => Abort end else Ub
  | DumpM i rel =>
      if i <? nm w then
        let t := orelse dT (mm w i) in
        Ok (set_dm (fset (dm w) i (Some t)) (set_mm (fset (mm w) i (if rel then None else Some t)) w))
      else Ub
  | FreeM i => if i <? nm w then Ok (set_mm (fset (mm w) i None) w) else Ub
  | EmptyM => if negb dbg || forallb (fun i => isnull (mm w i)) (seq 0 (nm w)) then Ok w else Abort
  | NewEnvs n => Ok (mkW (nm w) (mm w) n fnone fnone (acc w) (eng w) (dm w) (dl w) (dr w) (tmp w))
  | LoadE s n => if n <? ne w then match de_ s w n with Some e => Ok (set_e s (fset (le_ s w) n (Some e)) w) | None => Abort end else Ub
  | DumpE s n =>
      if n <? ne w then
        let e := orelse dE (le_ s w n) in
        Ok (set_de s (fset (de_ s w) n (Some e)) (set_e s (fset (le_ s w) n (Some e)) w))
      else Ub
  | FreeE s n => if n <? ne w then Ok (set_e s (fset (le_ s w) n None) w) else Ub
  | RmE s n => Ok (set_de s (fset (de_ s w) n None) w)
  | SetAcc s i => let! _ := getM i w in Ok (set_acc (Some (triv s)) w)
  | GrowAcc s i => let! e := use (acc w) in let! t := getM i w in Ok (set_acc (Some (grow s i e t)) w)
  | WriteAcc s n => let! e := use (acc w) in Ok (set_de s (fset (de_ s w) n (Some e)) w)
  | Upd2 rt l =>
      let! el := getE L l w in
      let! er := getE R (nm w - (l + 2)) w in
      let! a := getM l w in
      let! b := getM (l + 1) w in
      let '(a', b', x) := solve rt l el a b er in
      let! w := putM l a' w in
      let! w := putM (l + 1) b' w in
      let! w := if rt then putE L (l + 1) (grow L l el a') w else putE R (nm w - (l + 1)) (grow R (l + 1) er b') w in
      Ok (set_eng (Some x) w)
  | CanoL i => let! a := getM i w in let! b := getM (i + 1) w in let (a', b') := canoL a b in let! w := putM i a' w in putM (i + 1) b' w
  | CanoR i => let! a := getM (i - 1) w in let! b := getM i w in let (a', b') := canoR a b in let! w := putM (i - 1) a' w in putM i b' w
  end.
Fixpoint exec (dbg : bool) (p : list instr) (w : world) : res world :=
  match p with [] => Ok w | c :: q => let! w := exec1 dbg c w in exec dbg q w end.

(** the process dies: memory is gone, files stay; a new process makes a new MPS object of the same size *)
Definition crash (w : world) : world := mkW (nm w) fnone 0 fnone fnone None None (dm w) (dl w) (dr w) (tmp w).
End Disk.
