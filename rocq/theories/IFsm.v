(** The machine of the infinite MPO generator: one_dim_tn/mpo/mpogen/ifsm.h 23-148 and impo_gen.h 36-46, 103-110.
    A call may throw after it has changed the object and the caller may catch the exception, so a call returns the new object
    and the outcome.  [Op] are operator representations, [eqO] the equivalence of the order that std::map uses. *)
From Coq Require Import List Arith Lia Bool ZArith.
From Verif Require Import Base.
Import ListNotations.

Section IFsm.
Variable Op : Type.
Variable eqO : Op -> Op -> bool.

(** FSMNode, fsm.h 17-79: site and state.  kFSMReadyStatIdx = 0, kFSMFinalStatIdx = -1 (fsm.h 169-171) *)
Definition node : Type := (nat * Z)%type.
Definition node_eqb (a b : node) : bool := (fst a =? fst b) && (snd a =? snd b)%Z.
(** FSMNode::Site(), fsm.h 71-73: returns the state, converted to size_t; a negative state becomes a number larger than any
    vector, here [None] *)
Definition site_of (a : node) : option nat := if (snd a <? 0)%Z then None else Some (Z.to_nat (snd a)).

(** FSMNNLinks, ifsm.h 15: std::map<FSMNode, std::map<OpRepr, FSMNode>> *)
Definition links : Type := list (node * list (Op * node)).
Definition at_ (l : links) (a : node) : option (list (Op * node)) := option_map snd (find (fun p => node_eqb (fst p) a) l).
Definition find_op (l : list (Op * node)) (o : Op) : option node := option_map snd (find (fun p => eqO (fst p) o) l).
(** map::insert does nothing when the key is there *)
Definition insert_op (l : list (Op * node)) (o : Op) (t : node) : list (Op * node) := match find_op l o with Some _ => l | None => l ++ [(o, t)] end.
Definition insert_at (l : links) (a : node) (o : Op) (t : node) : links :=
  map (fun p => if node_eqb (fst p) a then (fst p, insert_op (snd p) o t) else p) l.

Record ifsm : Type := mkIf { cell : nat; mids : list nat; sets : list links; paths : list (list node) }.

(** constructor, ifsm.h 25-48 *)
Definition new_links (s : nat) (o : Op) : links := [((s, 0%Z), [(o, (s + 1, 0%Z))]); ((s, (-1)%Z), [(o, (s + 1, (-1)%Z))])].
Definition ifsm_new (dbg : bool) (n : nat) (ids : list Op) : res ifsm :=
  let! _ := assert_ dbg (length ids =? n) in
  let! ls := for_loop 0 n (fun s acc => let! o := vget ids s in Ok (acc ++ [new_links s o])) [] in
  Ok (mkIf n (repeat 0 n) ls []).

Definition set_mids (m : list nat) (f : ifsm) : ifsm := mkIf (cell f) m (sets f) (paths f).
Definition set_sets (s : list links) (f : ifsm) : ifsm := mkIf (cell f) (mids f) s (paths f).

(** the three steps of a new state: mid_stat_nums_[target]++, the node, the link (lines 119-123 and 126-129); the node is
    appended to the path before the link is inserted *)
Definition open_node (f : ifsm) (ls tgt : nat) (a : node) (o : Op) : ifsm * res node :=
  match vget (mids f) tgt with
  | Ok k =>
      let f := set_mids (upd (mids f) tgt (S k)) f in
      let t := (tgt, Z.of_nat (S k)) in
      match vget (sets f) ls with
      | Ok l => match at_ l a with
                | Some _ => (set_sets (upd (sets f) ls (insert_at l a o t)) f, Ok t)
                | None => (f, Abort)                      (* at() throws *)
                end
      | _ => (f, Ub)
      end
  | _ => (f, Ub)
  end.
(** the loop 104-131 over the operators but the last; [a]: the node reached, [opened]: open_new_path *)
Fixpoint walk (f : ifsm) (ops : list Op) (a : node) (opened : bool) (acc : list node) : ifsm * res (node * bool * list node) :=
  match ops with
  | [] => (f, Ok (a, opened, acc))
  | o :: ops =>
      match site_of a with
      | None => (f, Ub)
      | Some ls =>
          if cell f =? 0 then (f, Ub) else
          let tgt := (ls + 1) mod cell f in
          let go f r := match r with Ok t => walk f ops t true (acc ++ [t]) | Ub => (f, Ub) | Abort => (f, Abort) end in
          if opened then let (f, r) := open_node f ls tgt a o in go f r else
          match vget (sets f) ls with
          | Ok l =>
              match at_ l a with
              | None => (f, Abort)
              | Some m =>
                  match find_op m o with
                  | Some t => if negb (snd t =? -1)%Z then walk f ops t false (acc ++ [t]) else let (f, r) := open_node f ls tgt a o in go f r
                  | None => let (f, r) := open_node f ls tgt a o in go f r
                  end
              end
          | _ => (f, Ub)
          end
      end
  end.
(** AddPath, 81-148.  With no operators the bound phys_site_num - 1 wraps and at(0) throws. *)
Definition add_path (dbg : bool) (f : ifsm) (head : nat) (ops : list Op) : ifsm * res unit :=
  if dbg && negb (1 <? length ops) then (f, Abort) else
  if cell f =? 0 then (f, Ub) else
  if length ops =? 0 then (f, Abort) else
  let a := (head mod cell f, 0%Z) in
  match walk f (removelast ops) a false [a] with
  | (f, Ub) => (f, Ub)
  | (f, Abort) => (f, Abort)
  | (f, Ok (p, opened, acc)) =>
      let tail := (length ops + head) mod cell f in
      let ok := match site_of p with Some s => tail =? (s + 1) mod cell f | None => false end in
      if dbg && negb ok then (f, Abort) else
      let e := (tail, (-1)%Z) in
      if opened then
        let ls := (tail + cell f - 1) mod cell f in
        match vget (sets f) ls, last (map Some ops) None with
        | Ok l, Some o => match at_ l p with
                          | Some _ => (mkIf (cell f) (mids f) (upd (sets f) ls (insert_at l p o e)) (paths f ++ [acc ++ [e]]), Ok tt)
                          | None => (f, Abort)
                          end
        | _, _ => (f, Ub)
        end
      else (f, Abort)                                     (* exit(1) *)
  end.

(** iMPOGenerator::AddTerm and AddConsecutiveOps_: [sites] are the sites of the local operators, [conv] what
    TransferHamiltonianTermToConsecutiveOpRepr_ makes of the term *)
Definition add_term (dbg : bool) (f : ifsm) (sites : list nat) (conv : res (list Op)) : ifsm * res unit :=
  match sites with
  | [] => (f, Ub)                                         (* front() *)
  | h :: _ => match conv with Ok ops => add_path dbg f h ops | Ub => (f, Ub) | Abort => (f, Abort) end
  end.
(** a program that adds terms and goes on after exceptions; the outcome of each call *)
Fixpoint add_terms (dbg : bool) (f : ifsm) (ts : list (list nat * res (list Op))) : ifsm * list (res unit) :=
  match ts with
  | [] => (f, [])
  | (s, c) :: ts => let (f, r) := add_term dbg f s c in let (f, rs) := add_terms dbg f ts in (f, r :: rs)
  end.
End IFsm.
Arguments mkIf {Op}.
Arguments cell {Op}.
Arguments mids {Op}.
Arguments sets {Op}.
Arguments paths {Op}.
