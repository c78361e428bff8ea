(** Properties C12 - C15, C55: finite matrix product states. *)
From Coq Require Import List Arith Lia Bool ZArith.
From Verif Require Import Base FiniteMps FmpsSpec FmpsFacts FmpsTruth FmpsNorm FmpsInst.
Import ListNotations.

Section Mps.
(* elements: any commutative ring with a conjugation; decompositions: any exact ones with a canonical factor *)
Variables (R : Type) (r0 r1 : R) (radd rmul rsub : R -> R -> R) (ropp : R -> R).
Variable Rth : ring_theory r0 r1 radd rmul rsub ropp (@eq R).
Variable conj : R -> R.
Hypothesis conj_0 : conj r0 = r0.
Hypothesis conj_1 : conj r1 = r1.
Hypothesis conj_add : forall a b, conj (radd a b) = radd (conj a) (conj b).
Hypothesis conj_mul : forall a b, conj (rmul a b) = rmul (conj a) (conj b).
Variable qr : ten R -> ten R * mat2 R.
Variable svd1 : ten R -> mat2 R * ten R * list R.
Variable normalize : ten R -> ten R.
Hypothesis QR : qr_exact R r0 r1 radd rmul conj qr.
Hypothesis SVD : svd_exact R r0 r1 radd rmul conj svd1.
Notation Centralize dbg k st := (centralize R r0 radd rmul qr svd1 dbg k st).
Notation LeftCanonicalize dbg k st := (left_cano R r0 radd rmul qr dbg k st).
Notation RightCanonicalize dbg k st := (right_cano R r0 radd rmul qr svd1 dbg k st).
Notation Reverse st := (reverse R st).
Notation amplitude ts s := (mps_amp R r0 r1 radd rmul ts s).

(** C12 *)
Theorem C12_centralize_puts_center : forall dbg ts st k x y, holds R st ts -> linked R x ts y -> k < length ts ->
  exists st', Centralize dbg (Z.of_nat k) st = Ok st' /\ center st' = Z.of_nat k /\ length (types st') = length ts /\
    (forall j, j < k -> nth_error (types st') j = Some LEFT) /\
    (forall j, k < j < length ts -> nth_error (types st') j = Some RIGHT).
Proof. exact (C12_lemma R r0 r1 radd rmul rsub ropp Rth conj qr svd1 QR SVD). Qed.
(** no other target ever completes *)
Theorem C12_centralize_out_of_range : forall dbg k st st', length (types st) = length (tens st) -> Centralize dbg k st = Ok st' ->
  (0 <= k < Z.of_nat (length (tens st)))%Z.
Proof. exact (centralize_range R r0 radd rmul qr svd1). Qed.

(** C13 *)
Theorem C13_flags_truthful : forall dbg ops n st,
  for_each ops (mexec R r0 radd rmul qr svd1 normalize dbg) (fmps_new R n) = Ok st -> truthful R r0 r1 radd rmul conj st.
Proof. exact (history_true R r0 r1 radd rmul conj qr svd1 normalize QR SVD). Qed.

(** C14 *)
Theorem C14_canonicalization_preserves_state : forall dbg ts st, holds R st ts -> linked R 1 ts 1 ->
  (forall k, k < length ts -> exists st' ts', Centralize dbg (Z.of_nat k) st = Ok st' /\ holds R st' ts' /\ same_amps R r0 r1 radd rmul ts ts') /\
  (forall k, S k < length ts -> exists st' ts', LeftCanonicalize dbg k st = Ok st' /\ holds R st' ts' /\ same_amps R r0 r1 radd rmul ts ts') /\
  (forall k, 0 < k < length ts -> exists st' ts', RightCanonicalize dbg k st = Ok st' /\ holds R st' ts' /\ same_amps R r0 r1 radd rmul ts ts').
Proof. exact (C14_lemma R r0 r1 radd rmul rsub ropp Rth conj qr svd1 QR SVD). Qed.

(** C15 *)
Theorem C15_reverse : forall ts st, holds R st ts -> linked R 1 ts 1 -> ts <> [] -> exists st' ts', Reverse st = Ok st' /\ holds R st' ts' /\
  length ts' = length ts /\ linked R 1 ts' 1 /\
  (forall s, amplitude ts' s = amplitude ts (fun i => s (length ts - 1 - i))) /\
  exists st'', Reverse st' = Ok st'' /\ holds R st'' ts.
Proof. exact (C15_lemma R r0 r1 radd rmul rsub ropp Rth). Qed.

(** C55: after Centralize(k) the squared norm of tensor k is the squared norm of the state *)
Theorem C55_norm_of_center : forall dbg ts st k, holds R st ts -> linked R 1 ts 1 -> truthful R r0 r1 radd rmul conj st -> k < length ts ->
  exists st' t, Centralize dbg (Z.of_nat k) st = Ok st' /\ nth_error (tens st') k = Some (Some t) /\
    frob2 R r0 radd rmul conj t = norm2 R r0 r1 radd rmul conj ts.
Proof. exact (norm_lemma R r0 r1 radd rmul rsub ropp Rth conj conj_0 conj_1 conj_add conj_mul qr svd1 QR SVD). Qed.
End Mps.

(** C13: loading files through the inherited function leaves the flags behind *)
Theorem C13_load_leaves_stale_flags_refuted : exists st, stale = Ok st /\ center st = 1%Z /\ nth_error (types st) 0 = Some LEFT /\
  exists t, nth_error (tens st) 0 = Some (Some t) /\ ~ left_canonical Z 0%Z 1%Z Z.add Z.mul zconj t.
Proof. exact stale_refuted. Qed.

(** the hypotheses are met: exact decompositions over Z, a three-site state with nonzero amplitudes *)
Example mps_hypotheses_met : qr_exact Z 0%Z 1%Z Z.add Z.mul zconj zqr /\ svd_exact Z 0%Z 1%Z Z.add Z.mul zconj zsvd /\
  holds Z ex_st ex_ts /\ linked Z 1 ex_ts 1 /\ ex_amps = [-3; -5; 71]%Z.
Proof. exact (conj zqr_exact (conj zsvd_exact (conj ex_holds (conj ex_linked ex_amps_nonzero)))). Qed.
Example C12_met : flags_of ex_c = Some ([LEFT; NONE; RIGHT], 1%Z).
Proof. exact ex_c_flags. Qed.
Example C13_met : flags_of ex_central = Some ([LEFT; NONE], 1%Z).
Proof. exact ex_hist_flags. Qed.
Example C55_met : ex_norm = 7992%Z /\ ex_frob = ex_norm.
Proof. exact ex_norm_frob. Qed.

Print Assumptions C12_centralize_puts_center.
Print Assumptions C12_centralize_out_of_range.
Print Assumptions C13_flags_truthful.
Print Assumptions C14_canonicalization_preserves_state.
Print Assumptions C15_reverse.
Print Assumptions C55_norm_of_center.
Print Assumptions C13_load_leaves_stale_flags_refuted.
