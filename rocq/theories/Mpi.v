(** Processes that exchange messages, with the guarantees the MPI standard gives for MPI_Send and MPI_Recv.

    Used by the code in /repo/include/qlmps/algo_mpi.  A process is a program point and local data; its program gives the next
    communication.  A channel is the list of the messages that were sent from one rank to another and not received yet.
    - A send may be buffered: the sender goes on, the message is in the channel ([buffered]).  Or it may wait for the receiver
      ([direct]).  MPI does not promise buffering, so a correct program must not need it.
    - A receive names a source or MPI_ANY_SOURCE, a tag or MPI_ANY_TAG ([None]); it takes from a channel that fits the first message
      that fits ("non-overtaking").
    Simplifications: computations between communications are part of the step before; one message stands for the several messages
    a tensor is sent as by the tensor library; broadcasts are treated where they are used. *)
From Coq Require Import List Arith Bool.
Import ListNotations.

Section Net.
Variables L V : Type.
Notation msg := (nat * V)%type.
Inductive act : Type :=
  | ASend (d t : nat) (v : V) (l : L)                                   (* MPI_Send(v, d, t); then l *)
  | ARecv (s t : option nat) (k : nat -> nat -> V -> L)                 (* MPI_Recv; then k source tag value *)
  | AHalt.
Variable prog : nat -> L -> act.
Variable P : nat.                                                       (* number of processes *)
Record net : Type := mkNet { loc : nat -> L; chan : nat -> nat -> list msg }.
Definition fits (o : option nat) (x : nat) : bool := match o with None => true | Some y => y =? x end.
Fixpoint take (o : option nat) (ms : list msg) : option (msg * list msg) :=
  match ms with
  | [] => None
  | m :: ms => if fits o (fst m) then Some (m, ms) else match take o ms with Some (x, r) => Some (x, m :: r) | None => None end
  end.
Definition setl (f : nat -> L) (i : nat) (x : L) : nat -> L := fun j => if j =? i then x else f j.
Definition setc (f : nat -> nat -> list msg) (a b : nat) (x : list msg) : nat -> nat -> list msg := fun i j => if (i =? a) && (j =? b) then x else f i j.

Inductive buffered (s : net) : net -> Prop :=
  | Buf : forall p d t v l, p < P -> prog p (loc s p) = ASend d t v l ->
      buffered s (mkNet (setl (loc s) p l) (setc (chan s) p d (chan s p d ++ [(t, v)]))).
Inductive receive (s : net) : net -> Prop :=
  | Rcv : forall p q so to k t v r, p < P -> q < P -> prog p (loc s p) = ARecv so to k -> fits so q = true -> take to (chan s q p) = Some ((t, v), r) ->
      receive s (mkNet (setl (loc s) p (k q t v)) (setc (chan s) q p r)).
Inductive direct (s : net) : net -> Prop :=
  | Dir : forall p d t v l so to k, p < P -> d < P -> p <> d -> prog p (loc s p) = ASend d t v l -> prog d (loc s d) = ARecv so to k ->
      fits so p = true -> fits to t = true -> take to (chan s p d) = None ->
      direct s (mkNet (setl (setl (loc s) p l) d (k p t v)) (chan s)).
Definition step (s s' : net) : Prop := buffered s s' \/ receive s s' \/ direct s s'.
(** an execution of n steps *)
Inductive steps : nat -> net -> net -> Prop :=
  | Stop : forall s, steps 0 s s
  | More : forall n s s1 s2, steps n s s1 -> step s1 s2 -> steps (S n) s s2.
(** everybody has finished, no message is left *)
Definition final (s : net) : Prop := (forall p, p < P -> prog p (loc s p) = AHalt) /\ forall p q, chan s p q = [].
Definition start (f : nat -> L) : net := mkNet f (fun _ _ => []).

(** communication without buffers: both sides at once *)
Inductive sync (g : nat -> L) : (nat -> L) -> Prop :=
  | Syn : forall p d t v l so to k, p < P -> d < P -> p <> d -> prog p (g p) = ASend d t v l -> prog d (g d) = ARecv so to k ->
      fits so p = true -> fits to t = true -> sync g (setl (setl g p l) d (k p t v)).
End Net.
Arguments ASend {L V} _ _ _ _. Arguments ARecv {L V} _ _ _. Arguments AHalt {L V}.
Arguments mkNet {L V} _ _. Arguments loc {L V} _ _. Arguments chan {L V} _ _ _.
Arguments take {V} _ _. Arguments setl {L} _ _ _ _. Arguments setc {V} _ _ _ _ _ _. Arguments start {L V} _.
