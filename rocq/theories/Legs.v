(** Tensors with any number of legs and the operations of the tensor library that the algorithms call with explicit leg numbers.

    The library (qlten) is not part of the repository: these definitions say what its calls mean here.  Elements are in an arbitrary
    ring; quantum numbers and index directions are not modelled.  A call with legs that do not exist or dimensions that do not match
    is undefined. *)
From Coq Require Import List Arith Bool.
From Verif Require Import Base FiniteMps FmpsSpec.
Import ListNotations.

Section Legs.
Variables (R : Type) (r0 r1 : R) (radd rmul : R -> R -> R) (conj : R -> R).
Infix "+r" := radd (at level 50, left associativity).
Infix "*r" := rmul (at level 40, left associativity).
Notation sumn := (sumn R r0 radd).

(** dimensions of the legs, element at a list of indices (one for each leg) *)
Record gten : Type := mkG { gd : list nat; ge : list nat -> R }.
Definition rank (t : gten) : nat := length (gd t).
(** sum over all indices of legs with the given dimensions *)
Fixpoint gsum (ds : list nat) (f : list nat -> R) : R :=
  match ds with [] => f [] | d :: ds => sumn d (fun i => gsum ds (fun k => f (i :: k))) end.
Definition deq (d e : nat) : bool := d =? e.
Fixpoint eqbs (l m : list nat) : bool :=
  match l with
  | [] => match m with [] => true | _ => false end
  | x :: l => match m with y :: m => deq x y && eqbs l m | [] => false end
  end.
(** legs that are not in the list, in order *)
Definition others (n : nat) (axs : list nat) : list nat := filter (fun i => negb (existsb (Nat.eqb i) axs)) (seq 0 n).
(** k legs from number s on, cyclically *)
Definition cyc (n s k : nat) : list nat := map (fun i => (s + i) mod n) (seq 0 k).
Fixpoint pos (i : nat) (p : list nat) : nat := match p with [] => 0 | j :: p => if j =? i then 0 else S (pos i p) end.
Definition legs_ok (p : list nat) (n : nat) : bool := (length p =? n) && forallb (fun i => existsb (Nat.eqb i) p) (seq 0 n).

(** t.Transpose(p): leg k of the result is leg p[k] *)
Definition gtrans (p : list nat) (t : gten) : res gten :=
  if negb (legs_ok p (rank t)) then Ub else
  Ok (mkG (map (fun i => nth i (gd t) 0) p) (fun x => ge t (map (fun i => nth (pos i p) x 0) (seq 0 (rank t))))).
(** the last k legs of a with the first k legs of b *)
Definition gtail (k : nat) (a b : gten) : res gten :=
  let da := firstn (rank a - k) (gd a) in let ka := skipn (rank a - k) (gd a) in
  if negb (eqbs ka (firstn k (gd b))) then Ub else
  Ok (mkG (da ++ skipn k (gd b)) (fun x => gsum ka (fun i => ge a (firstn (length da) x ++ i) *r ge b (i ++ skipn (length da) x)))).
(** Contract(a, b, {axa, axb}, &c): the other legs of a, then the other legs of b *)
Definition gcontract (axa axb : list nat) (a b : gten) : res gten :=
  let! a' := gtrans (others (rank a) axa ++ axa) a in
  let! b' := gtrans (axb ++ others (rank b) axb) b in
  if negb (length axa =? length axb) then Ub else gtail (length axa) a' b'.
(** Contract<ElemT, QNT, tail, head>(a, b, sa, sb, k, c): k consecutive legs (cyclically) from sa and from sb; the other legs follow in
    cyclic order.  The two flags only choose how the data is moved. *)
Definition gcontract1 (sa sb k : nat) (a b : gten) : res gten :=
  let! a' := gtrans (cyc (rank a) (sa + k) (rank a - k) ++ cyc (rank a) sa k) a in
  let! b' := gtrans (cyc (rank b) sb k ++ cyc (rank b) (sb + k) (rank b - k)) b in
  gtail k a' b'.
(** Dag; Tensor *= number; TenT(indices) *)
Definition gdag (t : gten) : gten := mkG (gd t) (fun x => conj (ge t x)).
Definition gscale (s : R) (t : gten) : gten := mkG (gd t) (fun x => s *r ge t x).
Definition gzero (ds : list nat) : gten := mkG ds (fun _ => r0).
(** t.FuseIndex(i, j): the fused leg comes first; its index k stands for the pair (k / b, k mod b) *)
Definition fused_dim (a b : nat) : nat := a * b.
Definition fused_1 (k b : nat) : nat := k / b.
Definition fused_2 (k b : nat) : nat := k mod b.
Definition gfuse (i j : nat) (t : gten) : res gten :=
  let! t' := gtrans ([i; j] ++ others (rank t) [i; j]) t in
  match gd t' with
  | a :: b :: ds => Ok (mkG (fused_dim a b :: ds) (fun x => match x with k :: y => ge t' (fused_1 k b :: fused_2 k b :: y) | [] => r0 end))
  | _ => Ub
  end.
(** Expand(a, b, {ax}, c) and ExpandQNBlocks: direct sum along one leg *)
Definition sum_dim (n m : nat) : nat := n + m.
Definition in_first (i n : nat) : bool := i <? n.
Definition in_second (i n : nat) : nat := i - n.
Definition gexpand (ax : nat) (a b : gten) : res gten :=
  if negb ((ax <? rank a) && eqbs (upd (gd a) ax 0) (upd (gd b) ax 0)) then Ub else
  let n := nth ax (gd a) 0 in
  Ok (mkG (upd (gd a) ax (sum_dim n (nth ax (gd b) 0))) (fun x => let i := nth ax x 0 in if in_first i n then ge a x else ge b (upd x ax (in_second i n)))).
(** scalar(): the value of a tensor without legs *)
Definition gscalar (t : gten) : res R := match gd t with [] => Ok (ge t []) | _ => Ub end.

(** the tensors of sites as the other models know them: MPS (three legs), MPO (left, in, out, right) *)
Definition ten_of (t : gten) : ten R := mkTen (nth 0 (gd t) 0) (nth 1 (gd t) 0) (nth 2 (gd t) 0) (fun a s b => ge t [a; s; b]).
Definition in_range (i lo n : nat) : bool := (lo <=? i) && (i <? lo + n).
(** elements of the selected range of one leg only: TensorContraction1SectorExecutor leaves the other blocks of the result empty *)
Definition gonly (ax lo n : nat) (t : gten) : gten :=
  mkG (gd t) (fun x => if in_range (nth ax x 0) lo n then ge t x else r0).
End Legs.
