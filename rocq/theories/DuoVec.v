(** Model of DuoVector and TenVec: one_dim_tn/framework/duovector.h, ten_vec.h, with an explicit heap.

    A heap address is a position in [heap]; [None] there means the cell has been deleted.  A container is its vector of
    pointers.  Deleting or reading a deleted cell, dereferencing null and indexing out of range are undefined behaviour.
    Allocation failure is not modelled.  Files are keyed by name; a file holds one element or cannot be opened (short
    reads and write errors are not modelled). *)
From Coq Require Import List Arith Lia Bool String.
From Verif Require Import Base.
Import ListNotations.

Section Model.
Variable V : Type.
Variable dflt : V.      (* the default constructed element *)
Definition addr := nat.
Definition heap := list (option V).
Definition slots := list (option addr).          (* raw_data_, duovector.h 238 *)
Definition fileset := list (string * V).         (* newest entry first *)

Definition h_new (v : V) (h : heap) : addr * heap := (List.length h, h ++ [Some v]).
Definition h_read (a : addr) (h : heap) : res V := match nth_error h a with Some (Some v) => Ok v | _ => Ub end.
Definition h_write (a : addr) (v : V) (h : heap) : res heap := match nth_error h a with Some (Some _) => Ok (upd h a (Some v)) | _ => Ub end.
Definition h_delete (a : addr) (h : heap) : res heap := match nth_error h a with Some (Some _) => Ok (upd h a None) | _ => Ub end.
(** delete p (of a null pointer: nothing) *)
Definition p_delete (p : option addr) (h : heap) : res heap := match p with Some a => h_delete a h | None => Ok h end.
Definition p_deref (p : option addr) : res addr := match p with Some a => Ok a | None => Ub end.

Record world : Type := mkWorld { hp : heap; objs : list (option slots); fs : fileset }.
Definition w0 : world := mkWorld [] [] [].
(** a container object; destroyed ones are gone *)
Definition obj (w : world) (c : nat) : res slots := let! o := vget (objs w) c in match o with Some s => Ok s | None => Ub end.
Definition set_obj (c : nat) (s : option slots) (w : world) : res world := let! os := vset (objs w) c s in Ok (mkWorld (hp w) os (fs w)).
Definition new_obj (s : slots) (w : world) : world := mkWorld (hp w) (objs w ++ [Some s]) (fs w).
Definition set_hp (h : heap) (w : world) : world := mkWorld h (objs w) (fs w).

(** loop of the copy constructor, 54-58, and of the copy assignment, 76-80 *)
Fixpoint copy_slots (src : slots) (h : heap) : res (slots * heap) :=
  match src with
  | [] => Ok ([], h)
  | None :: r => let! (s, h) := copy_slots r h in Ok (None :: s, h)
  | Some a :: r => let! v := h_read a h in let (b, h) := h_new v h in let! (s, h) := copy_slots r h in Ok (Some b :: s, h)
  end.
(** loops 69-73, 103-107, 117-121 *)
Fixpoint delete_slots (s : slots) (h : heap) : res heap :=
  match s with [] => Ok h | p :: r => let! h := p_delete p h in delete_slots r h end.

(** DuoVector(size), 46 *)
Definition op_new (n : nat) (w : world) : res world := Ok (new_obj (repeat None n) w).
(** DuoVector(const DuoVector &), 53-59 *)
Definition op_copy (c : nat) (w : world) : res world :=
  let! s := obj w c in let! (t, h) := copy_slots s (hp w) in Ok (new_obj t (set_hp h w)).
(** operator=(const DuoVector &), 66-82 *)
Definition op_assign (c d : nat) (w : world) : res world :=
  let! own := obj w c in
  let! rhs := obj w d in
  let! h := delete_slots own (hp w) in
  let! w := set_obj c (Some (repeat None (List.length rhs))) (set_hp h w) in
  let! rhs := obj w d in          (* read again: it may be the same object *)
  let! (t, h) := copy_slots rhs (hp w) in
  set_obj c (Some t) (set_hp h w).
(** DuoVector(DuoVector &&), 89-93: duovec.size() is evaluated after the move, so the source gets size 0 *)
Definition op_move (c : nat) (w : world) : res world :=
  let! s := obj w c in let! w := set_obj c (Some []) w in Ok (new_obj s w).
(** operator=(DuoVector &&), 100-111.  A vector moved to itself is empty afterwards (libstdc++) *)
Definition op_move_assign (c d : nat) (w : world) : res world :=
  let! own := obj w c in
  let! rhs := obj w d in
  let! h := delete_slots own (hp w) in
  let! w := set_obj c (Some rhs) (set_hp h w) in
  set_obj d (Some []) w.
(** ~DuoVector, 116-122 *)
Definition op_destroy (c : nat) (w : world) : res world :=
  let! s := obj w c in let! h := delete_slots s (hp w) in set_obj c None (set_hp h w).
(** const operator[], 130 *)
Definition op_get (c i : nat) (w : world) : res V :=
  let! s := obj w c in let! p := vget s i in let! a := p_deref p in h_read a (hp w).
(** non-const operator[], 138-143; the address of the element *)
Definition op_ref (c i : nat) (w : world) : res (addr * world) :=
  let! s := obj w c in
  let! p := vget s i in
  match p with
  | Some a => Ok (a, w)
  | None => let (a, h) := h_new dflt (hp w) in
            let! s := vset s i (Some a) in
            let! w := set_obj c (Some s) (set_hp h w) in Ok (a, w)
  end.
(** c[i] = v *)
Definition op_put (c i : nat) (v : V) (w : world) : res world :=
  let! (a, w) := op_ref c i w in let! h := h_write a v (hp w) in Ok (set_hp h w).
(** reading c[i] of a non-const object *)
Definition op_touch (c i : nat) (w : world) : res (V * world) :=
  let! (a, w) := op_ref c i w in let! v := h_read a (hp w) in Ok (v, w).
(** delete c(i); c(i) = new T(v): the use made of the pointer access 157 everywhere in the code *)
Definition op_replace (c i : nat) (v : V) (w : world) : res world :=
  let! s := obj w c in let! p := vget s i in
  let! h := p_delete p (hp w) in
  let (a, h) := h_new v h in
  let! s := vset s i (Some a) in
  set_obj c (Some s) (set_hp h w).
(** std::swap(c(i), c(j)) *)
Definition op_swap (c i j : nat) (w : world) : res world :=
  let! s := obj w c in let! p := vget s i in let! q := vget s j in
  let! s := vset s i q in let! s := vset s j p in set_obj c (Some s) w.
(** alloc, 193-198 *)
Definition op_alloc (c i : nat) (w : world) : res world := op_replace c i dflt w.
(** dealloc, 205-210 *)
Definition op_dealloc (c i : nat) (w : world) : res world :=
  let! s := obj w c in let! p := vget s i in
  match p with
  | None => Ok w
  | Some a => let! h := h_delete a (hp w) in let! s := vset s i None in set_obj c (Some s) (set_hp h w)
  end.
(** clear, 215-217 *)
Definition op_clear (c : nat) (w : world) : res world :=
  let! s := obj w c in for_loop 0 (List.length s) (op_dealloc c) w.
(** front, back, 162-173 *)
Definition op_front (c : nat) (w : world) : res V := op_get c 0 w.
Definition op_back (c : nat) (w : world) : res V :=
  let! s := obj w c in match List.length s with O => Ub | S n => op_get c n w end.
(** empty, 228-235 *)
Definition op_empty (c : nat) (w : world) : res bool :=
  let! s := obj w c in Ok (forallb (fun p => match p with None => true | Some _ => false end) s).
Definition op_size (c : nat) (w : world) : res nat := let! s := obj w c in Ok (List.length s).

(** files *)
Fixpoint f_read (n : string) (f : fileset) : option V :=
  match f with [] => None | (m, v) :: r => if String.eqb n m then Some v else f_read n r end.
Definition f_write (n : string) (v : V) (f : fileset) : fileset := (n, v) :: f.
Definition f_remove (n : string) (f : fileset) : fileset := filter (fun x => negb (String.eqb n (fst x))) f.
Definition set_fs (f : fileset) (w : world) : world := mkWorld (hp w) (objs w) f.
(** LoadTen, ten_vec.h 61-75: true = loaded, false = exception (after alloc) *)
Definition op_load (c i : nat) (n : string) (w : world) : res (bool * world) :=
  let! w := op_alloc c i w in
  match f_read n (fs w) with
  | None => Ok (false, w)
  | Some v => let! w := op_put c i v w in Ok (true, w)
  end.
(** const DumpTen, 83-87 *)
Definition op_dump_const (c i : nat) (n : string) (w : world) : res world :=
  let! v := op_get c i w in Ok (set_fs (f_write n v (fs w)) w).
(** DumpTen, 96-105 *)
Definition op_dump (c i : nat) (n : string) (rel : bool) (w : world) : res world :=
  let! (v, w) := op_touch c i w in
  let w := set_fs (f_write n v (fs w)) w in
  if rel then op_dealloc c i w else Ok w.
(** MPS::Dump (non-const), mps.h 84-94; MPS::Load, 101-107 (an exception ends the loop).  [name i] is the file of site i *)
Definition op_dump_all (c : nat) (name : nat -> string) (rel : bool) (w : world) : res world :=
  let! n := op_size c w in for_loop 0 n (fun i => op_dump c i (name i) rel) w.
Definition op_dump_all_const (c : nat) (name : nat -> string) (w : world) : res world :=
  let! n := op_size c w in for_loop 0 n (fun i => op_dump_const c i (name i)) w.
Definition op_load_all (c : nat) (name : nat -> string) (w : world) : res (bool * world) :=
  let! n := op_size c w in
  for_loop 0 n (fun i x => if fst x : bool then op_load c i (name i) (snd x) else Ok x) (true, w).

(** histories *)
Inductive op : Type :=
| ONew (n : nat) | OCopy (c : nat) | OAssign (c d : nat) | OMove (c : nat) | OMoveAssign (c d : nat) | ODestroy (c : nat)
| OGet (c i : nat) | OPut (c i : nat) (v : V) | OTouch (c i : nat) | OReplace (c i : nat) (v : V) | OSwap (c i j : nat)
| OAlloc (c i : nat) | ODealloc (c i : nat) | OClear (c : nat) | OFront (c : nat) | OBack (c : nat) | OEmpty (c : nat) | OSize (c : nat)
| OLoad (c i : nat) (n : string) | ODumpConst (c i : nat) (n : string) | ODump (c i : nat) (n : string) (rel : bool)
| ORemove (n : string).
Inductive out : Type := OutV (v : V) | OutB (b : bool) | OutN (n : nat) | OutUnit.
Definition step (o : op) (w : world) : res (out * world) :=
  match o with
  | ONew n => let! w := op_new n w in Ok (OutUnit, w)
  | OCopy c => let! w := op_copy c w in Ok (OutUnit, w)
  | OAssign c d => let! w := op_assign c d w in Ok (OutUnit, w)
  | OMove c => let! w := op_move c w in Ok (OutUnit, w)
  | OMoveAssign c d => let! w := op_move_assign c d w in Ok (OutUnit, w)
  | ODestroy c => let! w := op_destroy c w in Ok (OutUnit, w)
  | OGet c i => let! v := op_get c i w in Ok (OutV v, w)
  | OPut c i v => let! w := op_put c i v w in Ok (OutUnit, w)
  | OTouch c i => let! (v, w) := op_touch c i w in Ok (OutV v, w)
  | OReplace c i v => let! w := op_replace c i v w in Ok (OutUnit, w)
  | OSwap c i j => let! w := op_swap c i j w in Ok (OutUnit, w)
  | OAlloc c i => let! w := op_alloc c i w in Ok (OutUnit, w)
  | ODealloc c i => let! w := op_dealloc c i w in Ok (OutUnit, w)
  | OClear c => let! w := op_clear c w in Ok (OutUnit, w)
  | OFront c => let! v := op_front c w in Ok (OutV v, w)
  | OBack c => let! v := op_back c w in Ok (OutV v, w)
  | OEmpty c => let! b := op_empty c w in Ok (OutB b, w)
  | OSize c => let! n := op_size c w in Ok (OutN n, w)
  | OLoad c i n => let! (b, w) := op_load c i n w in Ok (OutB b, w)
  | ODumpConst c i n => let! w := op_dump_const c i n w in Ok (OutUnit, w)
  | ODump c i n rel => let! w := op_dump c i n rel w in Ok (OutUnit, w)
  | ORemove n => Ok (OutUnit, set_fs (f_remove n (fs w)) w)
  end.
Fixpoint runs (l : list op) (w : world) : res (list out * world) :=
  match l with [] => Ok ([], w) | o :: l' => let! (x, w) := step o w in let! (xs, w) := runs l' w in Ok (x :: xs, w) end.
End Model.
