(** What the variational product of two FiniteMPO is expected to do, and the contract of the truncated SVD of a tensor with six legs. *)
From Coq Require Import List Arith Bool ZArith Reals.
From Verif Require Import Base FiniteMps FmpsSpec EffHamSpec FinMpo FinMpoSpec Cx GVec Legs MpoCanoSpec.
Import ListNotations.
Local Open Scope nat_scope.

(** the product of two operators, the second acts first *)
Definition product (ds : list nat) (A B : coper) : coper := o_mul cx c0 cadd cmul ds A B.

(** legs (left, in, out | in, out, right) *)
Section Six.
Variables (D0 p1 q1 p2 q2 D3 : nat).
Definition at6 (g : gten cx) (o s s' t t' o' : nat) : cx := ge cx g [o; s; s'; t; t'; o'].
Definition norm6 (g : gten cx) : real :=
  fst (ssum D0 (fun o => ssum p1 (fun s => ssum q1 (fun s' => ssum p2 (fun t => ssum q2 (fun t' => ssum D3 (fun o' => cmul (cconj (at6 g o s s' t t' o')) (at6 g o s s' t t' o')))))))).
(** the kept columns of u and rows of vt are orthonormal, the tensor projected on the rows of vt is u s, e is the discarded part of the squared norm,
    at most Dmax values are kept, and e exceeds trunc_err only if Dmax values are kept *)
Record truncated6 (terr : real) (Dmax : nat) (g : gten cx) (r : ten4 cx * list real * ten4 cx * real) : Prop := {
  t6_dims : let '(u, s, vt, e) := r in m0 u = D0 /\ m1 u = p1 /\ m2 u = q1 /\ m3 u = length s /\ m0 vt = length s /\ m1 vt = p2 /\ m2 vt = q2 /\ m3 vt = D3;
  t6_left : let '(u, s, vt, e) := r in left4 u;
  t6_right : let '(u, s, vt, e) := r in right4 vt;
  t6_proj : let '(u, s, vt, e) := r in forall o p q k, o < D0 -> p < p1 -> q < q1 -> k < length s ->
    ssum p2 (fun t => ssum q2 (fun t' => ssum D3 (fun o' => cmul (at6 g o p q t t' o') (cconj (e4 vt k t t' o'))))) = cmul (e4 u o p q k) (cre (nth k s 0%R));
  t6_err : let '(u, s, vt, e) := r in (0 <= e < 1)%R /\ sq_sum s = ((1 - e) * norm6 g)%R;
  t6_max : let '(u, s, vt, e) := r in length s <= Dmax /\ (length s < Dmax -> (e <= terr)%R)
}.
End Six.
Definition good6 (terr : real) (Dmin Dmax : nat) (svd : real -> nat -> nat -> gten cx -> ten4 cx * list real * ten4 cx * real) : Prop :=
  forall D0 p1 q1 p2 q2 D3 g, gd cx g = [D0; p1; q1; p2; q2; D3] -> norm6 D0 p1 q1 p2 q2 D3 g <> 0%R -> truncated6 D0 p1 q1 p2 q2 D3 terr Dmax g (svd terr Dmin Dmax g).
(** the flags at the end: the center is site 1 *)
Definition flags_center1 (N : nat) : list cano := LEFT :: NONE :: repeat RIGHT (N - 2).

(** what the call leaves in the output: [X] is the product, [start] the operator the sweeps begin with, [log] the truncation error and bond dimension of every step *)
Record variational (ds : list nat) (terr : real) (Dmax : nat) (X start : coper) (st : fmpo cx) (ms : list (ten4 cx)) (log : list (real * nat)) : Prop := {
  vr_holds : holds4 cx st ms;
  vr_oper : oper_on cx ds ms;
  vr_flags : mtypes st = flags_center1 (length ms) /\ mcenter st = 1%Z;
  vr_true : truthful4 st;
  vr_proj : hs ds (melem ms) X = hs ds (melem ms) (melem ms) /\ hs2 ds (melem ms) <> 0%R;
  vr_dist : hsdist2 ds (melem ms) X = (hs2 ds X - hs2 ds (melem ms))%R;
  vr_log : Forall (fun o => (0 <= fst o < 1)%R /\ snd o <= Dmax /\ (snd o < Dmax -> (fst o <= terr)%R)) log;
  vr_near : (hsdist2 ds (melem ms) X <= hsdist2 ds start X + lost_sum (map fst log) * hs2 ds X)%R;
  vr_bonds : Forall (fun t => m0 t <= Dmax) (tl ms);
  (** the tensors of sites 1 and 2 are the best there are between the other tensors, up to what the last step discarded *)
  vr_best : exists a p q r, ms = a :: p :: q :: r /\ forall p' q', oper_on cx ds (a :: p' :: q' :: r) ->
    (hsdist2 ds (melem ms) X <= hsdist2 ds (melem (a :: p' :: q' :: r)) X + fst (last log (0%R, 0%nat)) * hs2 ds X)%R
}.
