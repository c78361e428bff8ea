(** Specification of containers: values, no heap.  Each container is a list of optional values. *)
From Coq Require Import List Arith Bool String.
From Verif Require Import Base DuoVec.
Import ListNotations.

Section Spec.
Variable V : Type.
Variable dflt : V.
Notation op := (op V). Notation out := (out V).
Definition vals := list (option V).
(** what the client sees: the containers (None = destroyed) and the files *)
Record aworld : Type := mkA { conts : list (option vals); afs : string -> option V }.
Definition a0 : aworld := mkA [] (fun _ => None).
Definition acont (a : aworld) (c : nat) : res vals := match nth_error (conts a) c with Some (Some s) => Ok s | _ => Ub end.
Definition aset (c : nat) (s : option vals) (a : aworld) : aworld := mkA (upd (conts a) c s) (afs a).
Definition aadd (s : vals) (a : aworld) : aworld := mkA (conts a ++ [Some s]) (afs a).
Definition fset (n : string) (v : option V) (f : string -> option V) : string -> option V := fun m => if String.eqb m n then v else f m.
Definition slot_or (o : option V) : V := match o with Some v => v | None => dflt end.

(** every operation needs existing containers and indexes within range; const access, front and back need an element *)
Definition astep (o : op) (a : aworld) : res (out * aworld) :=
  match o with
  | ONew _ n => Ok (OutUnit V, aadd (repeat None n) a)
  | OCopy _ c => let! s := acont a c in Ok (OutUnit V, aadd s a)
  | OAssign _ c d => let! s := acont a c in let! t := acont a d in
      (* assigning a container to itself loses the contents *)
      Ok (OutUnit V, aset c (Some (if c =? d then repeat None (List.length s) else t)) a)
  | OMove _ c => let! s := acont a c in Ok (OutUnit V, aadd s (aset c (Some []) a))
  | OMoveAssign _ c d => let! s := acont a c in let! t := acont a d in Ok (OutUnit V, aset d (Some []) (aset c (Some t) a))
  | ODestroy _ c => let! s := acont a c in Ok (OutUnit V, aset c None a)
  | OGet _ c i => let! s := acont a c in match nth_error s i with Some (Some v) => Ok (OutV V v, a) | _ => Ub end
  | OPut _ c i v | OReplace _ c i v => let! s := acont a c in if i <? List.length s then Ok (OutUnit V, aset c (Some (upd s i (Some v))) a) else Ub
  | OTouch _ c i => let! s := acont a c in
      match nth_error s i with Some o => Ok (OutV V (slot_or o), aset c (Some (upd s i (Some (slot_or o)))) a) | None => Ub end
  | OSwap _ c i j => let! s := acont a c in
      match nth_error s i, nth_error s j with Some x, Some y => Ok (OutUnit V, aset c (Some (upd (upd s i y) j x)) a) | _, _ => Ub end
  | OAlloc _ c i => let! s := acont a c in if i <? List.length s then Ok (OutUnit V, aset c (Some (upd s i (Some dflt))) a) else Ub
  | ODealloc _ c i => let! s := acont a c in if i <? List.length s then Ok (OutUnit V, aset c (Some (upd s i None)) a) else Ub
  | OClear _ c => let! s := acont a c in Ok (OutUnit V, aset c (Some (repeat None (List.length s))) a)
  | OFront _ c => let! s := acont a c in match s with Some v :: _ => Ok (OutV V v, a) | _ => Ub end
  | OBack _ c => let! s := acont a c in match rev s with Some v :: _ => Ok (OutV V v, a) | _ => Ub end
  | OEmpty _ c => let! s := acont a c in Ok (OutB V (forallb (fun p => match p with None => true | Some _ => false end) s), a)
  | OSize _ c => let! s := acont a c in Ok (OutN V (List.length s), a)
  | OLoad _ c i n => let! s := acont a c in
      if i <? List.length s then
        match afs a n with
        | Some v => Ok (OutB V true, aset c (Some (upd s i (Some v))) a)
        | None => Ok (OutB V false, aset c (Some (upd s i (Some dflt))) a) (* the old element is gone *)
        end
      else Ub
  | ODumpConst _ c i n => let! s := acont a c in
      match nth_error s i with Some (Some v) => Ok (OutUnit V, mkA (conts a) (fset n (Some v) (afs a))) | _ => Ub end
  | ODump _ c i n rel => let! s := acont a c in
      match nth_error s i with
      | Some o => Ok (OutUnit V, mkA (upd (conts a) c (Some (upd s i (if rel then None else Some (slot_or o))))) (fset n (Some (slot_or o)) (afs a)))
      | None => Ub
      end
  | ORemove _ n => Ok (OutUnit V, mkA (conts a) (fset n None (afs a)))
  end.
Fixpoint aruns (l : list op) (a : aworld) : res (list out * aworld) :=
  match l with [] => Ok ([], a) | o :: l' => let! (x, a) := astep o a in let! (xs, a) := aruns l' a in Ok (x :: xs, a) end.

(** *** ownership *)
Definition owned_slots (s : option slots) : list addr :=
  match s with Some l => flat_map (fun p => match p with Some a => [a] | None => [] end) l | None => [] end.
Definition owned (w : world V) : list addr := flat_map owned_slots (objs V w).
Definition live (w : world V) (a : addr) : Prop := exists v, nth_error (hp V w) a = Some (Some v).
(** each live cell belongs to exactly one slot of one container, and no slot points to a deleted cell *)
Definition exact_ownership (w : world V) : Prop := NoDup (owned w) /\ forall a, In a (owned w) <-> live w a.
(** the heap world shows the client the abstract world *)
Definition slot_shows (h : heap V) (p : option addr) (x : option V) : Prop :=
  match p, x with None, None => True | Some a, Some v => nth_error h a = Some (Some v) | _, _ => False end.
Definition shows (w : world V) (a : aworld) : Prop :=
  Forall2 (fun o x => match o, x with None, None => True | Some s, Some y => Forall2 (slot_shows (hp V w)) s y | _, _ => False end) (objs V w) (conts a) /\
  forall n, f_read V n (fs V w) = afs a n.
End Spec.
