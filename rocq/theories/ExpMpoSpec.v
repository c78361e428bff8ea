(** What ExpFiniteMPO is expected to return when powers and sums are truncated: a chain of operators, one per order, each close to what it should be,
    and how far the last one can be from the Taylor polynomial and from the exponential. *)
From Coq Require Import List Arith Bool ZArith Reals Factorial.
From Verif Require Import Base FiniteMps FmpsSpec EffHamSpec FinMpo FinMpoSpec Cx GVec MpoCanoSpec MpoVarSpec ExpMpo.
Import ListNotations.
Local Open Scope nat_scope.

(** 2-norm of an operator, distance *)
Definition onorm (ds : list nat) (A : coper) : real := sqrt (hs2 ds A).
Definition odist (ds : list nat) (A B : coper) : real := onorm ds (o_sub A B).
Definition o_plus (A B : coper) : coper := fun c c' => cadd (A c c') (B c c').
Definition o_times (a : real) (A : coper) : coper := fun c c' => cmul (cre a) (A c c').
Definition ident : coper := o_id cx c0 c1.
Definition trace (ds : list nat) (A : coper) : cx := o_trace cx c0 cadd ds A.
(** order n of the series of exp(a H), and the sum of the orders below K *)
Definition taylor_term (ds : list nat) (a : real) (H : coper) (n : nat) : coper := exp_term cx c0 c1 cadd cmul ds (fun n => cre (/ INR (fact n))) (cre a) H n.
Definition taylor (ds : list nat) (a : real) (H : coper) (K : nat) : coper := exp_sum cx c0 c1 cadd cmul ds (fun n => cre (/ INR (fact n))) (cre a) H K.
(** the exponential: every matrix element is the limit of the polynomials *)
Definition is_exp (ds : list nat) (a : real) (H E : coper) : Prop := forall c c', In c (configs ds) -> In c' (configs ds) ->
  Un_cv (fun K => fst (taylor ds a H K c c')) (fst (E c c')) /\ Un_cv (fun K => snd (taylor ds a H K c c')) (snd (E c c')).

(** how the power of an order was made: the first is given; product, then truncated with these errors; optimised from a start, with these errors;
    the start itself, without a step *)
Inductive made : Type := First | Exact (e : list real) | Varied (start : coper) (e : list real) | Kept (start : coper).
(** one order: the power divided by n factorial, the errors made when the sum was truncated (none if it was not), the sum, largest bond dimensions of the power and of the sum *)
Record order : Type := mkOrder { od_made : made; od_term : coper; od_cut : list real; od_sum : coper; od_bond : nat; od_sbond : nat }.
(** M is what a truncation with these errors leaves of P: the rest is orthogonal to M, and every error takes its part of the squared norm *)
Definition cut_from (ds : list nat) (P : coper) (es : list real) (M : coper) : Prop :=
  Forall (fun e => (0 <= e < 1)%R) es /\ hs2 ds P <> 0%R /\ hs ds M P = hs ds M M /\ hs2 ds M = (remains es * hs2 ds P)%R.
(** M is what an optimisation from G, with these errors, leaves of P *)
Definition varied_from (ds : list nat) (P G : coper) (es : list real) (M : coper) : Prop :=
  Forall (fun e => (0 <= e < 1)%R) es /\ hs ds M P = hs ds M M /\ hs2 ds M <> 0%R /\ (hsdist2 ds M P <= hsdist2 ds G P + lost_sum es * hs2 ds P)%R.
(** squared distance from the product P that the printed errors allow *)
Definition allowed (ds : list nat) (P : coper) (m : made) : real :=
  match m with First => 0%R | Exact e => (lost_sum e * hs2 ds P)%R | Varied G e => (hsdist2 ds G P + lost_sum e * hs2 ds P)%R | Kept G => hsdist2 ds G P end.
(** order n after the power T; [stored n] is the operator stored for that order, the start of the optimisation is it or else T *)
Definition power_of (ds : list nat) (X : coper) (stored : nat -> option coper) (n : nat) (T : coper) (m : made) (T' : coper) : Prop :=
  if n =? 1 then m = First /\ same_oper ds T' X
  else (forall G e, m = Varied G e \/ m = Kept G -> match stored n with Some G0 => G = G0 | None => same_oper ds G T end) /\
       exists M, match m with First => False | Exact e => cut_from ds (product ds T X) e M | Varied G e => varied_from ds (product ds T X) G e M | Kept G => same_oper ds M G end /\ same_oper ds T' (o_times (/ INR n) M).
Definition sum_of (ds : list nat) (S T' : coper) (cut : list real) (S' : coper) : Prop := cut_from ds (o_plus S T') cut S'.
(** the orders n, n + 1, ... after the power T and the sum S *)
Fixpoint orders (ds : list nat) (X : coper) (stored : nat -> option coper) (n : nat) (T S : coper) (h : list order) : Prop :=
  match h with
  | [] => True
  | o :: h => power_of ds X stored n T (od_made o) (od_term o) /\ sum_of ds S (od_term o) (od_cut o) (od_sum o) /\ orders ds X stored (n + 1) (od_term o) (od_sum o) h
  end.
Definition last_term (T : coper) (h : list order) : coper := last (map od_term h) T.
Definition last_sum (S : coper) (h : list order) : coper := last (map od_sum h) S.
(** the bound: [e] for the power, [r] for the sum; x is the norm of X *)
Fixpoint bound (ds : list nat) (X : coper) (n : nat) (T S : coper) (e r : real) (h : list order) : real :=
  match h with
  | [] => r
  | o :: h =>
    let e := if n =? 1 then 0%R else ((e * onorm ds X + sqrt (allowed ds (product ds T X) (od_made o))) / INR n)%R in
    let r := (r + e + sqrt (lost_sum (od_cut o) * hs2 ds (o_plus S (od_term o))))%R in
    bound ds X (n + 1) (od_term o) (od_sum o) e r h
  end.
(** A zero operator has to be decomposed or divided by its norm: an order is left to do and the next product, its overlap with the start, or the next sum is zero; or the identity is (a site without states) *)
Definition degenerate (ds : list nat) (X : coper) (stored : nat -> option coper) (top : nat) (h : list order) : Prop :=
  let n := length h + 1 in let T := last_term X h in let S := last_sum ident h in
  (length h < top /\
   ((1 < n /\ hs2 ds (product ds T X) = 0%R) \/
    (1 < n /\ exists G, match stored n with Some G0 => G = G0 | None => same_oper ds G T end /\ hs ds G (product ds T X) = c0) \/
    (exists m T', power_of ds X stored n T m T' /\ hs2 ds (o_plus S T') = 0%R))) \/
  hs2 ds ident = 0%R.
(** sums below K of x^n / n! *)
Definition exp_poly (x : real) (K : nat) : real := fold_right (fun n a => (x ^ n / INR (fact n) + a)%R) 0%R (seq 0 K).

(** *** what is printed and stored *)
(** the trace of a power is small compared with that of the identity *)
Definition tiny (ds : list nat) (ttol : real) (T : coper) : Prop := cmod (trace ds ident) <> 0%R /\ (cmod (trace ds T) / cmod (trace ds ident) < ttol)%R.
(** errors between 0 and 1, bond dimensions at most Dmax, errors above [terr] only with Dmax values kept *)
Definition sound_errors (terr : real) (Dmax : nat) (l : list (real * nat)) : Prop :=
  Forall (fun o => (0 <= fst o < 1)%R /\ snd o <= Dmax /\ (snd o < Dmax -> (fst o <= terr)%R)) l.
Definition reported (ds : list nat) (terr eps : real) (Dmax : nat) (o : olog) (d : order) : Prop :=
  match ol_pow o, od_made d with
  | PFirst, First => True
  | PExact l, Exact e => e = map fst l /\ exists D, sound_errors eps D l
  | PVar l, Varied _ e => e = map fst l /\ sound_errors terr Dmax l
  | PVar l, Kept _ => l = []
  | _, _ => False
  end /\ match ol_rho o with None => od_cut d = [] | Some l => od_cut d = map fst l /\ sound_errors eps Dmax l end /\ ol_trace o = trace ds (od_term d).
(** largest bond dimension between two sites *)
Definition width (ts : list (ten4 cx)) : nat := fold_right Nat.max 1 (map (@m0 cx) (tl ts)).
(** The optimisation makes no step on two sites or with no sweeps *)
Definition still (ds : list nat) (sweeps : nat) : Prop := length ds = 2 \/ sweeps = 0.
(** The optimisation is used when the product of the bond dimensions, of the Hamiltonian and of the last power, exceeds Dmax, and then leaves at most Dmax if it makes a step; the sum is
    truncated only if the bond dimensions add up to more than Dmax, and never has more than that.  D and E are the bond dimensions of the last power and of the sum *)
Fixpoint widths (no_step : Prop) (DH Dmax D E : nat) (h : list order) : Prop :=
  match h with
  | [] => True
  | o :: h =>
    match od_made o with First => od_bond o = D | Exact _ => DH * D <= Dmax /\ od_bond o <= DH * D | Varied _ _ => ~ no_step /\ Dmax < DH * D /\ od_bond o <= Dmax | Kept _ => no_step /\ Dmax < DH * D end /\
    (od_cut o <> [] -> Dmax < E + od_bond o) /\ od_sbond o <= Nat.min Dmax (E + od_bond o) /\
    widths no_step DH Dmax (od_bond o) (od_sbond o) h
  end.
(** a directory with the tensors of a chain and a center that is in range, -1 or missing *)
Definition dir_chain (ds : list nat) (d : mdir cx) (gs : list (ten4 cx)) : Prop :=
  oper_on cx ds gs /\ (forall i t, nth_error gs i = Some t -> mfile d i = Some t) /\ match cfile d with None => True | Some c => (-1 <= c < Z.of_nat (length gs))%Z end.
(** a directory is missing, or holds a chain with that operator *)
Definition dir_holds (ds : list nat) (d : option (mdir cx)) (G : option coper) : Prop :=
  match d, G with None, None => True | Some d, Some G => exists gs, dir_chain ds d gs /\ G = melem gs | _, _ => False end.
(** no order before the last ended the loop; the last is the [top]-th or ended it: even, with a small trace *)
Definition went_on (ds : list nat) (ttol : real) (h : list order) : Prop := forall i o, nth_error h i = Some o -> i + 1 < length h -> Nat.even (i + 1) = true -> ~ tiny ds ttol (od_term o).
Definition ended (ds : list nat) (ttol : real) (X : coper) (top : nat) (h : list order) : Prop :=
  length h = top \/ (length h < top /\ 1 <= length h /\ Nat.even (length h) = true /\ tiny ds ttol (last_term X h)).
(** the directory of every order done holds its power, the others are as before *)
Definition files (ds : list nat) (dirs : hdirs) (h : list order) (dirs' : hdirs) : Prop :=
  (forall i o, nth_error h i = Some o -> exists d gs, dirs' (i + 1) = Some d /\ dir_chain ds d gs /\ od_term o = melem gs /\ od_bond o = width gs) /\ forall m, m = 0 \/ length h < m -> dirs' m = dirs m.
(** the assertion of a debug build on the sign of an even order *)
Definition stopped_at_sign (ds : list nat) (X : coper) (dbg : bool) (h : list order) : Prop := dbg = true /\ 1 <= length h /\ Nat.even (length h) = true /\ (fst (trace ds (last_term X h)) <= 0)%R.
(** S divided by its norm, right-canonical behind the first site, without a recorded center *)
Definition normal_form (ds : list nat) (S : coper) (rho : fmpo cx) : Prop := exists rs, holds4 cx rho rs /\ oper_on cx ds rs /\ hs2 ds (melem rs) = 1%R /\ same_oper ds (o_times (onorm ds S) (melem rs)) S /\
  mcenter rho = (-1)%Z /\ nth_error (mtypes rho) 0 = Some NONE /\ forall j, 1 <= j < length ds -> nth_error (mtypes rho) j = Some RIGHT /\ exists t, nth_error (mtens rho) j = Some (Some t) /\ right4 t.
