(** C79: what GetEntanglementEntropy returns and what it does to the state. *)
From Coq Require Import List Arith Lia Bool ZArith Reals Lra.
From Verif Require Import Base FiniteMps FmpsSpec Cx GVec TruncMps TruncMpsSpec TruncMpsInst EntropyMps EntropySpec EntropyRun EntropyInst.
Import ListNotations.
Local Open Scope nat_scope.

(** The call returns one value per bond.  Afterwards the state is divided by its norm, with the same physical legs; all sites but the first are right canonical and flagged so, the
    first has no flag, and there is no center. *)
Theorem C79_state : forall qr svd1 (dbg : bool) n st ts, qr_exact cx c0 c1 cadd cmul cconj qr ->
  holds cx st ts -> linked cx 1 ts 1 -> truthful cx c0 c1 cadd cmul cconj st -> ts <> [] -> norm ts <> 0%R ->
  (forall a, svd_call qr svd1 dbg n st a -> schmidt_svd a (svd1 a)) ->
  exists st' ts' es, get_ee qr svd1 dbg n st = Ok (st', es) /\ length es = length ts - 1 /\ holds cx st' ts' /\ linked cx 1 ts' 1 /\ map d1 ts' = map d1 ts /\
    (forall s, In s (basis ts) -> amplitude ts' s = cmul (cre (/ norm ts)) (amplitude ts s)) /\
    Forall (right_canonical cx c0 c1 cadd cmul cconj) (tl ts') /\ center st' = (-1)%Z /\ nth_error (types st') 0 = Some NONE /\
    (forall j, 0 < j < length ts -> nth_error (types st') j = Some RIGHT).
Proof.
  intros qr svd1 dbg n st ts Q H1 H2 H3 H4 H5 H6.
  destruct (ee_ok qr svd1 Q dbg n st ts H1 H2 H3 H4 H5 H6) as [st' [ts' [es [A1 [A2 [A3 [A4 [A5 [A6 [A7 [A8 [A9 [A10 [A11 A12]]]]]]]]]]]]]].
  exists st', ts', es. split; [exact A1|]. split; [exact A11|]. split; [exact A2|]. split; [exact A3|]. split; [exact A4|]. split; [exact A6|]. split; [exact A7|]. split; [exact A8|]. split; [exact A9|]. exact A10.
Qed.
Print Assumptions C79_state.

(** For n > 1 the value of bond i is the Renyi entropy of order n of the sites 0 .. i in the normalised state; the trace in it is real and positive. *)
Theorem C79_renyi : forall qr svd1 (dbg : bool) n st ts st' es, qr_exact cx c0 c1 cadd cmul cconj qr ->
  holds cx st ts -> linked cx 1 ts 1 -> truthful cx c0 c1 cadd cmul cconj st -> ts <> [] -> norm ts <> 0%R ->
  (forall a, svd_call qr svd1 dbg n st a -> schmidt_svd a (svd1 a)) -> get_ee qr svd1 dbg n st = Ok (st', es) -> 1 < n ->
  forall i, S i < length ts -> let psi := fun s => cmul (cre (/ norm ts)) (amplitude ts s) in
    nth_error es i = Some (Some (renyi psi (map d1 ts) (S i) n)) /\ (0 < fst (trace_pow psi (map d1 ts) (S i) n))%R /\ snd (trace_pow psi (map d1 ts) (S i) n) = 0%R.
Proof.
  intros qr svd1 dbg n st ts st0 es0 Q H1 H2 H3 H4 H5 H6 H7 Hn i Hi.
  destruct (ee_ok qr svd1 Q dbg n st ts H1 H2 H3 H4 H5 H6) as [st' [ts' [es [A1 [A2 [A3 [A4 [A5 [A6 [A7 [A8 [A9 [A10 [A11 A12]]]]]]]]]]]]]].
  rewrite H7 in A1. injection A1 as <- <-. destruct (nth_error ts' i) as [t|] eqn:Et; [|apply nth_error_None in Et; lia].
  destruct (A12 i t Hi Et) as [e [E1 [_ E2]]]. destruct n as [|[|n]]; try lia. destruct E2 as [E2 [E3 E4]]. subst e. split; [exact E1|]. split; [exact E2|exact E3].
Qed.
Print Assumptions C79_renyi.

(** For n = 1 the reduced density matrix has a spectral decomposition, and for every one of them: the value of bond i is the von Neumann entropy of its eigenvalues unless the bond has
    more dimensions than there are eigenvalues other than zero; then it is not a number. *)
Theorem C79_von_neumann : forall qr svd1 (dbg : bool) st ts st' ts' es, qr_exact cx c0 c1 cadd cmul cconj qr ->
  holds cx st ts -> linked cx 1 ts 1 -> truthful cx c0 c1 cadd cmul cconj st -> ts <> [] -> norm ts <> 0%R ->
  (forall a, svd_call qr svd1 dbg 1 st a -> schmidt_svd a (svd1 a)) -> get_ee qr svd1 dbg 1 st = Ok (st', es) -> holds cx st' ts' ->
  forall i t, S i < length ts -> nth_error ts' i = Some t -> let psi := fun s => cmul (cre (/ norm ts)) (amplitude ts s) in
    (exists q v, spectral psi (map d1 ts) (S i) q v) /\
    forall q v, spectral psi (map d1 ts) (S i) q v -> nth_error es i = Some (if rank q <? d2 t then None else Some (von_neumann q)).
Proof.
  intros qr svd1 dbg st ts st0 ts0 es0 Q H1 H2 H3 H4 H5 H6 H7 H8 i t Hi Ht.
  destruct (ee_ok qr svd1 Q dbg 1 st ts H1 H2 H3 H4 H5 H6) as [st' [ts' [es [A1 [A2 [A3 [A4 [A5 [A6 [A7 [A8 [A9 [A10 [A11 A12]]]]]]]]]]]]]].
  rewrite H7 in A1. injection A1 as <- <-. assert (E : ts0 = ts') by (apply map_some_inj; rewrite <- (proj1 A2); symmetry; exact (proj1 H8)). subst ts0.
  destruct (A12 i t Hi Ht) as [e [E1 [E2 E3]]]. split; [exact E2|]. intros q v S. rewrite E1. f_equal. exact (E3 q v S).
Qed.
Print Assumptions C79_von_neumann.

(** For n = 0 every value is zero: the divisor n - 1 wraps around and the power is the first. *)
Theorem C79_order_zero : forall qr svd1 (dbg : bool) st ts st' es, qr_exact cx c0 c1 cadd cmul cconj qr ->
  holds cx st ts -> linked cx 1 ts 1 -> truthful cx c0 c1 cadd cmul cconj st -> ts <> [] -> norm ts <> 0%R ->
  (forall a, svd_call qr svd1 dbg 0 st a -> schmidt_svd a (svd1 a)) -> get_ee qr svd1 dbg 0 st = Ok (st', es) ->
  forall i, S i < length ts -> nth_error es i = Some (Some 0%R).
Proof.
  intros qr svd1 dbg st ts st0 es0 Q H1 H2 H3 H4 H5 H6 H7 i Hi.
  destruct (ee_ok qr svd1 Q dbg 0 st ts H1 H2 H3 H4 H5 H6) as [st' [ts' [es [A1 [A2 [A3 [A4 [A5 [A6 [A7 [A8 [A9 [A10 [A11 A12]]]]]]]]]]]]]].
  rewrite H7 in A1. injection A1 as <- <-. destruct (nth_error ts' i) as [t|] eqn:Et; [|apply nth_error_None in Et; lia].
  destruct (A12 i t Hi Et) as [e [E1 [_ E2]]]. subst e. exact E1.
Qed.
Print Assumptions C79_order_zero.

(** A state of norm zero is divided by zero; an empty chain throws. *)
Theorem C79_zero : forall qr svd1 (dbg : bool) n st, qr_exact cx c0 c1 cadd cmul cconj qr ->
  (forall ts, holds cx st ts -> linked cx 1 ts 1 -> truthful cx c0 c1 cadd cmul cconj st -> ts <> [] -> norm ts = 0%R -> get_ee qr svd1 dbg n st = Ub) /\
  (tens st = [] -> get_ee qr svd1 dbg n st = Abort).
Proof.
  intros qr svd1 dbg n st Q. split; [intros; eapply ee_zero; eassumption|]. intros H. unfold get_ee. rewrite H. reflexivity.
Qed.
Print Assumptions C79_zero.

(** x |00> + y |11> with any x, y >= 0 and x^2 + y^2 = 1 meets the hypotheses; with both different from zero the value for n = 1 is a number. *)
Theorem C79_case : forall x y (dbg : bool) n, (0 <= x)%R -> (0 <= y)%R -> (x * x + y * y = 1)%R ->
  qr_exact cx c0 c1 cadd cmul cconj cqr /\ holds cx (pair_st x y) (pair x y) /\ linked cx 1 (pair x y) 1 /\ truthful cx c0 c1 cadd cmul cconj (pair_st x y) /\
  pair x y <> [] /\ norm (pair x y) <> 0%R /\ (forall a, svd_call cqr (pair_svd x y) dbg n (pair_st x y) a -> schmidt_svd a (pair_svd x y a)) /\
  (x <> 0%R -> y <> 0%R -> exists st', get_ee cqr (pair_svd x y) dbg 1 (pair_st x y) = Ok (st', [Some (- (x * x) * ln (x * x) + - (y * y) * ln (y * y))%R])).
Proof.
  intros x y dbg n HX HY H1. destruct (pair_ok x y H1) as [P1 [P2 [P3 [P4 P5]]]].
  split; [exact cqr_exact|]. split; [exact P1|]. split; [exact P2|]. split; [exact P3|]. split; [exact P4|]. split; [exact P5|]. split; [exact (pair_calls x y HX HY H1 dbg n)|].
  intros NX NY. destruct (pair_run x y HX HY H1 dbg 1) as [st' E]. exists st'. rewrite E, (pair_one x y HX HY NX NY). reflexivity.
Qed.
Print Assumptions C79_case.

(** The value for n = 1 is not always the von Neumann entropy: |00> stored with bond dimension two has entropy zero, and the call returns NaN. *)
Theorem C79_nan_refuted : exists qr svd1 st ts st' q v, qr_exact cx c0 c1 cadd cmul cconj qr /\
  holds cx st ts /\ linked cx 1 ts 1 /\ truthful cx c0 c1 cadd cmul cconj st /\ norm ts = 1%R /\ (forall a, svd_call qr svd1 true 1 st a -> schmidt_svd a (svd1 a)) /\
  spectral (fun s => cmul (cre (/ norm ts)) (amplitude ts s)) (map d1 ts) 1 q v /\ von_neumann q = 0%R /\
  get_ee qr svd1 true 1 st = Ok (st', [None]).
Proof.
  assert (HX : (0 <= 1)%R) by lra. assert (HY : (0 <= 0)%R) by lra. assert (H1 : (1 * 1 + 0 * 0 = 1)%R) by ring.
  destruct (pair_ok 1 0 H1) as [P1 [P2 [P3 [P4 P5]]]]. destruct (pair_run 1 0 HX HY H1 true 1) as [st' E].
  eexists cqr, (pair_svd 1 0), (pair_st 1 0), (pair 1 0), st', _, _.
  split; [exact cqr_exact|]. split; [exact P1|]. split; [exact P2|]. split; [exact P3|]. split; [exact (pair_norm 1 0 H1)|]. split; [exact (pair_calls 1 0 HX HY H1 true 1)|].
  split; [exact (pair_spectral 1 0 H1)|]. split; [|rewrite E, (pair_nan 1 0 HY H1 eq_refl); reflexivity].
  cbn [von_neumann fold_right]. replace (1 * 1)%R with 1%R by ring. replace (0 * 0)%R with 0%R by ring. rewrite ln_1. destruct (Req_EM_T 1 0); [lra|]. destruct (Req_EM_T 0 0); [ring|lra].
Qed.
Print Assumptions C79_nan_refuted.
