(** C78: what TruncateMPS does to a state. *)
From Coq Require Import List Arith Lia Bool ZArith Reals Lra.
From Verif Require Import Base FiniteMps FmpsSpec Cx GVec TruncMps TruncMpsSpec TruncMpsFacts TruncMpsRun TruncMpsInst.
Import ListNotations.
Local Open Scope nat_scope.

(** The call returns.  The result has the same physical legs, fitting bonds whose dimensions are the printed ones and at most Dmax, left canonical tensors on all
    sites but the last, norm one, no flag and no center; its overlap with the old state is the old norm times the product of sqrt (1 - TruncErr) over the bonds. *)
Theorem C78_truncate : forall qr svd1 svd terr Dmin Dmax (dbg : bool) st ts,
  qr_exact cx c0 c1 cadd cmul cconj qr -> svd_exact cx c0 c1 cadd cmul cconj svd1 -> good_svd terr Dmin Dmax svd ->
  holds cx st ts -> linked cx 1 ts 1 -> truthful cx c0 c1 cadd cmul cconj st -> (if dbg then 2 else 1) <= length ts -> norm ts <> 0%R ->
  exists st' ts' out, truncate_mps qr svd1 svd dbg terr Dmin Dmax st = Ok (st', out) /\ holds cx st' ts' /\
    map d1 ts' = map d1 ts /\ length ts' = length ts /\ linked cx 1 ts' 1 /\ Forall (left_canonical cx c0 c1 cadd cmul cconj) (removelast ts') /\
    length out = length ts - 1 /\ map d2 (removelast ts') = map snd out /\
    Forall (fun o => (0 <= fst o < 1)%R /\ snd o <= Dmax /\ (snd o < Dmax -> (fst o <= terr)%R)) out /\
    center st' = (-1)%Z /\ Forall (eq NONE) (types st') /\
    inner ts' ts' = c1 /\ inner ts' ts = cre (norm ts * kept (map fst out)).
Proof.
  intros qr svd1 svd terr Dmin Dmax dbg st ts Q S V H1 H2 H3 H4 H5.
  destruct (truncate_ok qr svd1 svd Q S terr Dmin Dmax dbg st ts V H1 H2 H3 H4 H5) as [st' [l [z [out [A1 [A2 _]]]]]].
  exists st', (l ++ [z]), out. split; [exact A1|]. split; [exact A2|].
  exact (result_ok qr svd1 svd Q S terr Dmin Dmax V dbg st ts H1 H2 H3 H4 H5 st' (l ++ [z]) out A1 A2).
Qed.
Print Assumptions C78_truncate.

(** Its squared distance from the normalised old state is 2 - 2 times that product, at most twice the sum of the printed truncation errors. *)
Theorem C78_distance : forall qr svd1 svd terr Dmin Dmax (dbg : bool) st ts st' ts' out,
  qr_exact cx c0 c1 cadd cmul cconj qr -> svd_exact cx c0 c1 cadd cmul cconj svd1 -> good_svd terr Dmin Dmax svd ->
  holds cx st ts -> linked cx 1 ts 1 -> truthful cx c0 c1 cadd cmul cconj st -> (if dbg then 2 else 1) <= length ts -> norm ts <> 0%R ->
  truncate_mps qr svd1 svd dbg terr Dmin Dmax st = Ok (st', out) -> holds cx st' ts' ->
  distance2 ts' ts = (2 - 2 * kept (map fst out))%R /\ (0 <= distance2 ts' ts <= 2 * lost (map fst out))%R.
Proof. intros. eapply result_distance; eassumption. Qed.
Print Assumptions C78_distance.

(** If every printed truncation error is zero, the amplitudes are those of the old state divided by its norm. *)
Theorem C78_lossless : forall qr svd1 svd terr Dmin Dmax (dbg : bool) st ts st' ts' out,
  qr_exact cx c0 c1 cadd cmul cconj qr -> svd_exact cx c0 c1 cadd cmul cconj svd1 -> good_svd terr Dmin Dmax svd ->
  holds cx st ts -> linked cx 1 ts 1 -> truthful cx c0 c1 cadd cmul cconj st -> (if dbg then 2 else 1) <= length ts -> norm ts <> 0%R ->
  truncate_mps qr svd1 svd dbg terr Dmin Dmax st = Ok (st', out) -> holds cx st' ts' -> Forall (fun o => fst o = 0%R) out ->
  forall s, In s (basis ts) -> amplitude ts' s = cmul (cre (/ norm ts)) (amplitude ts s).
Proof. intros. eapply result_lossless; eassumption. Qed.
Print Assumptions C78_lossless.

(** If no bond reached Dmax, the squared distance is at most 2 (N - 1) trunc_err. *)
Theorem C78_within : forall qr svd1 svd terr Dmin Dmax (dbg : bool) st ts st' ts' out,
  qr_exact cx c0 c1 cadd cmul cconj qr -> svd_exact cx c0 c1 cadd cmul cconj svd1 -> good_svd terr Dmin Dmax svd ->
  holds cx st ts -> linked cx 1 ts 1 -> truthful cx c0 c1 cadd cmul cconj st -> (if dbg then 2 else 1) <= length ts -> norm ts <> 0%R ->
  truncate_mps qr svd1 svd dbg terr Dmin Dmax st = Ok (st', out) -> holds cx st' ts' -> Forall (fun o => snd o < Dmax) out ->
  (distance2 ts' ts <= 2 * INR (length ts - 1) * terr)%R.
Proof. intros. eapply result_within; eassumption. Qed.
Print Assumptions C78_within.

(** A state of norm zero is divided by zero; a chain with fewer than two sites aborts when asserts are on, and an empty one is undefined when they are off. *)
Theorem C78_zero : forall qr svd1 svd terr Dmin Dmax (dbg : bool) st ts,
  qr_exact cx c0 c1 cadd cmul cconj qr -> svd_exact cx c0 c1 cadd cmul cconj svd1 ->
  holds cx st ts -> linked cx 1 ts 1 -> truthful cx c0 c1 cadd cmul cconj st -> (if dbg then 2 else 1) <= length ts -> norm ts = 0%R ->
  truncate_mps qr svd1 svd dbg terr Dmin Dmax st = Ub.
Proof. intros. eapply truncate_zero; eassumption. Qed.
Print Assumptions C78_zero.
Theorem C78_short : forall qr svd1 svd terr Dmin Dmax st, length (tens st) < 2 ->
  truncate_mps qr svd1 svd true terr Dmin Dmax st = Abort /\ (tens st = [] -> truncate_mps qr svd1 svd false terr Dmin Dmax st = Ub).
Proof. exact short_chain. Qed.
Print Assumptions C78_short.

(** Decompositions as assumed exist for bond dimension one, and 3/5 |00> + 4/5 |11> is a state as assumed; truncating it to bond dimension one loses something. *)
Theorem C78_case : qr_exact cx c0 c1 cadd cmul cconj cqr /\ svd_exact cx c0 c1 cadd cmul cconj csvd1 /\ (forall terr Dmin, good_svd terr Dmin 1 svd_one) /\
  holds cx ghz_st ghz /\ linked cx 1 ghz 1 /\ truthful cx c0 c1 cadd cmul cconj ghz_st /\ 2 <= length ghz /\ norm ghz <> 0%R /\
  exists st' ts' e, truncate_mps cqr csvd1 svd_one true (1 / 10) 1 1 ghz_st = Ok (st', [(e, 1)]) /\ holds cx st' ts' /\ (0 < e < 1)%R /\ inner ts' ghz = cre (sqrt (1 - e)).
Proof.
  destruct ghz_ok as [G1 [G2 [G3 [G4 G5]]]].
  split; [exact cqr_exact|]. split; [exact csvd1_exact|]. split; [exact svd_one_good|]. split; [exact G1|]. split; [exact G2|]. split; [exact G3|]. split; [exact G4|]. split; [exact G5|]. exact ghz_lossy.
Qed.
Print Assumptions C78_case.
