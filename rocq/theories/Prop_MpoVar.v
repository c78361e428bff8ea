(** The variational product of two FiniteMPO, Square and SquareAndNormlize.  C81. *)
From Coq Require Import List Arith Lia Bool ZArith Reals Lra.
From Verif Require Import Base FiniteMps FmpsSpec EffHam EffHamSpec FinMpo FinMpoSpec FinMpoExp Cx GVec TruncMps TruncMpsInst MpoCano MpoCanoSpec MpoCanoRun MpoTrunc MpoCanoInst Legs MpoVar MpoSquare MpoVarSpec MpoVarTop MpoVarInst.
Import ListNotations.
Local Open Scope nat_scope.

(** MpoProduct(mpo1, mpo2, output) on three sites or more, with a start that overlaps with the product.  The output is an operator on the same sites whose overlap with the product
    is its own squared norm; its squared distance from the product exceeds that of the start by at most the printed truncation errors times the squared norm of the product; all bond dimensions are
    at most Dmax; site 0 is left canonical, sites 2 and up are right canonical, flags and center say so.  Every sweep prints 2 (N - 2) steps; the last printed norm is that of the output;
    fewer sweeps than asked only if the last two norms agree up to the tolerance. *)
Theorem C81_product : forall qr svd svd6 terr Dmin Dmax (dbg : bool) sweeps tol ds mpo1 mpo2 output ts1 ts2 gs fl fr, qr4_exact qr -> svd4_exact svd -> good6 terr Dmin Dmax svd6 ->
  mtens mpo1 = map Some ts1 -> mtens mpo2 = map Some ts2 -> oper_on cx ds ts1 -> oper_on cx ds ts2 -> oper_on cx ds gs -> 3 <= length ds -> 1 <= sweeps ->
  holds4 cx output gs \/ (length (mtens output) = length ts1 /\ length (mtypes output) = length ts1 /\ In None (mtens output) /\ gs = ts1 /\ holds4 cx mpo1 ts1 /\ truthful4 mpo1) ->
  hs ds (melem gs) (product ds (melem ts1) (melem ts2)) <> c0 ->
  exists v ms, mpo_vproduct qr svd svd6 terr Dmin Dmax dbg sweeps tol mpo1 mpo2 output fl fr = Ok v /\
    variational ds terr Dmax (product ds (melem ts1) (melem ts2)) (melem gs) (vout v) ms (vlog v) /\
    length (vlog v) = length (vnorms v) * (2 * (length ds - 2)) /\ 1 <= length (vnorms v) <= sweeps /\ last (vnorms v) 0%R = sqrt (hs2 ds (melem ms)) /\
    (length (vnorms v) < sweeps -> exists pre b c, vnorms v = pre ++ [b; c] /\ b <> 0%R /\ (Rabs (c - b) / b < tol)%R).
Proof.
  intros qr svd svd6 terr Dmin Dmax dbg sweeps tol ds mpo1 mpo2 output ts1 ts2 gs fl fr Q S V T1 T2 O1 O2 OG N3 NS ST NZ.
  assert (L : length ts1 = length ds) by (destruct O1 as [_ [E _]]; rewrite <- E, map_length; reflexivity). rewrite <- L in *.
  exact (vproduct_ok qr svd Q S svd6 terr Dmin Dmax ds ts1 ts2 gs mpo1 mpo2 output O1 O2 OG T1 T2 ST dbg sweeps tol fl fr V N3 NS NZ).
Qed.
Print Assumptions C81_product.
(** Without printed truncation errors the output is at least as close to the product as the start was, and is the product if the start was. *)
Theorem C81_lossless : forall ds terr Dmax X start st ms log, variational ds terr Dmax X start st ms log -> Forall (fun o => fst o = 0%R) log ->
  (hsdist2 ds (melem ms) X <= hsdist2 ds start X)%R /\ (same_oper ds start X -> same_oper ds (melem ms) X).
Proof.
  intros ds terr Dmax X start st ms log V HZ. pose proof (vr_near _ _ _ _ _ _ _ _ V) as N. assert (E : lost_sum (map fst log) = 0%R).
  { clear -HZ. induction HZ as [|o l E _ IH]; [reflexivity|]. cbn [map lost_sum fold_right]. fold (lost_sum (map fst l)). rewrite IH, E. ring. }
  rewrite E, Rmult_0_l, Rplus_0_r in N. split; [exact N|]. intros SE. apply zero_dist. destruct (hs_pos ds (o_sub (melem ms) X)) as [P _].
  assert (Z : hsdist2 ds start X = 0%R). { rewrite (dist_same ds start X X X SE (same_refl _ _)), proj_dist by reflexivity. ring. }
  unfold hsdist2, hs2 in *. lra.
Qed.
Print Assumptions C81_lossless.
(** Square: the same with both factors the object, started from the stored guess if there is one and from the object otherwise. *)
Theorem C81_square : forall qr svd svd6 terr Dmin Dmax (dbg : bool) sweeps tol ds d st ts gs fl fr, qr4_exact qr -> svd4_exact svd -> good6 terr Dmin Dmax svd6 -> holds4 cx st ts -> oper_on cx ds ts -> oper_on cx ds gs -> truthful4 st ->
  match d with None => gs = ts | Some d => saved d gs end -> 3 <= length ts -> 1 <= sweeps -> hs ds (melem gs) (product ds (melem ts) (melem ts)) <> c0 ->
  exists st' v ms, mpo_square qr svd svd6 terr Dmin Dmax dbg sweeps tol d st fl fr = Ok (st', v) /\ variational ds terr Dmax (product ds (melem ts) (melem ts)) (melem gs) st' ms (vlog v).
Proof. exact square_ok. Qed.
Print Assumptions C81_square.
(** SquareAndNormlize returns the norm of what Square leaves and leaves it divided by that norm. *)
Theorem C81_square_normalize : forall qr svd svd6 terr Dmin Dmax (dbg : bool) sweeps tol ds d st ts gs fl fr, qr4_exact qr -> svd4_exact svd -> good6 terr Dmin Dmax svd6 -> holds4 cx st ts -> oper_on cx ds ts -> oper_on cx ds gs -> truthful4 st ->
  match d with None => gs = ts | Some d => saved d gs end -> 3 <= length ts -> 1 <= sweeps -> hs ds (melem gs) (product ds (melem ts) (melem ts)) <> c0 ->
  exists st1 v ms st2 ts2, mpo_square qr svd svd6 terr Dmin Dmax dbg sweeps tol d st fl fr = Ok (st1, v) /\ holds4 cx st1 ms /\
    square_normalize qr svd svd6 terr Dmin Dmax dbg sweeps tol d st fl fr = Ok (cre (sqrt (hs2 ds (melem ms))), st2) /\ holds4 cx st2 ts2 /\ oper_on cx ds ts2 /\ mcenter st2 = 1%Z /\
    same_oper ds (melem ts2) (fun c c' => cmul (cre (/ sqrt (hs2 ds (melem ms)))) (melem ms c c')) /\ hs2 ds (melem ts2) = 1%R.
Proof.
  intros qr svd svd6 terr Dmin Dmax dbg sweeps tol ds d st ts gs fl fr Q S V H1 H2 H3 H4 H5 H6 H7 H8.
  destruct (square_ok qr svd svd6 terr Dmin Dmax dbg sweeps tol ds d st ts gs fl fr Q S V H1 H2 H3 H4 H5 H6 H7 H8) as [st1 [v [ms [A1 A2]]]].
  destruct (square_normalize_ok qr svd svd6 terr Dmin Dmax dbg sweeps tol ds d st ts gs fl fr st1 v ms H1 H6 A1 A2) as [st2 [ts2 B]]. exists st1, v, ms, st2, ts2. split; [exact A1|]. split; [apply A2|exact B].
Qed.
Print Assumptions C81_square_normalize.

(** On two sites, and with no sweeps, no step is made: the output is the operator of the start, whatever the factors are; yet site 0 is flagged left canonical and the center is set to 1. *)
Theorem C81_no_step_refuted : forall qr svd svd6 terr Dmin Dmax (dbg : bool) sweeps tol ds mpo1 mpo2 output ts1 ts2 gs fl fr, qr4_exact qr -> svd4_exact svd ->
  mtens mpo1 = map Some ts1 -> mtens mpo2 = map Some ts2 -> oper_on cx ds ts1 -> oper_on cx ds ts2 -> oper_on cx ds gs -> length ts1 = 2 \/ (2 <= length ts1 /\ sweeps = 0) ->
  holds4 cx output gs \/ (length (mtens output) = length ts1 /\ length (mtypes output) = length ts1 /\ In None (mtens output) /\ gs = ts1 /\ holds4 cx mpo1 ts1 /\ truthful4 mpo1) ->
  exists v p r, mpo_vproduct qr svd svd6 terr Dmin Dmax dbg sweeps tol mpo1 mpo2 output fl fr = Ok v /\ holds4 cx (vout v) (p :: r) /\ oper_on cx ds (p :: r) /\ same_oper ds (melem (p :: r)) (melem gs) /\ Forall right4 r /\
    mtypes (vout v) = flags_center1 (length ts1) /\ mcenter (vout v) = 1%Z /\ vlog v = [].
Proof.
  intros qr svd svd6 terr Dmin Dmax dbg sweeps tol ds mpo1 mpo2 output ts1 ts2 gs fl fr Q S T1 T2 O1 O2 OG HC ST.
  exact (vproduct_none qr svd Q S svd6 terr Dmin Dmax ds ts1 ts2 gs mpo1 mpo2 output O1 O2 OG T1 T2 ST dbg sweeps tol fl fr HC).
Qed.
Print Assumptions C81_no_step_refuted.
(** So Square of an operator on two sites leaves the operator itself, with a false flag, and SquareAndNormlize returns a norm of at least one for an operator of norm 1/2 and leaves an operator of norm at most 1/2. *)
Theorem C81_two_sites_refuted : exists st ts, holds4 cx st ts /\ oper_on cx [2; 2] ts /\ truthful4 st /\ hs2 [2; 2] (melem ts) = (1 / 4)%R /\ (hs2 [2; 2]%nat (product [2; 2]%nat (melem ts) (melem ts)) < 1)%R /\
  forall qr svd svd6 terr Dmin Dmax dbg sweeps tol fl fr, qr4_exact qr -> svd4_exact svd ->
  exists st' v ms, mpo_square qr svd svd6 terr Dmin Dmax dbg sweeps tol None st fl fr = Ok (st', v) /\ holds4 cx st' ms /\ same_oper [2; 2] (melem ms) (melem ts) /\ hsdist2 [2; 2] (melem ms) (product [2; 2] (melem ts) (melem ts)) <> 0%R /\ ~ truthful4 st' /\
  exists n st2 ts2, square_normalize qr svd svd6 terr Dmin Dmax dbg sweeps tol None st fl fr = Ok (n, st2) /\ (1 <= fst n)%R /\ holds4 cx st2 ts2 /\ (hs2 [2; 2]%nat (melem ts2) <= 1 / 4)%R.
Proof.
  exists hf_st, hf. destruct hf_ok as [G1 [G2 [G3 [G4 G5]]]]. split; [exact G1|]. split; [exact G2|]. split; [exact G3|]. split; [exact G4|]. split; [rewrite G5; lra|]. exact hf_wrong.
Qed.
Print Assumptions C81_two_sites_refuted.
(** One site or none is undefined. *)
Theorem C81_short : forall qr svd svd6 terr Dmin Dmax (dbg : bool) sweeps tol mpo1 mpo2 output fl fr, length (mtens mpo1) < 2 -> mpo_vproduct qr svd svd6 terr Dmin Dmax dbg sweeps tol mpo1 mpo2 output fl fr = Ub.
Proof. exact vproduct_small. Qed.
Print Assumptions C81_short.
(** The overlap with the start is needed: for an operator on three sites with a nonzero square, Square without a stored guess hands a zero tensor to the first decomposition. *)
Theorem C81_blind_start_refuted : exists st ts, holds4 cx st ts /\ oper_on cx [2; 2; 2] ts /\ truthful4 st /\ hs2 [2; 2; 2] (product [2; 2; 2] (melem ts) (melem ts)) <> 0%R /\
  (forall qr svd dbg, mcentralize qr svd dbg 0 st = Ok st) /\
  forall (dbg : bool) fl fr, exists fl' fr' le re a1 a2 g, vgen dbg st st st fl fr = Ok (fl', fr') /\ fread fl' 0 = Ok le /\ fread fr' 1 = Ok re /\ mderef cx st 0 = Ok a1 /\ mderef cx st 1 = Ok a2 /\ two_sites le re a1 a2 a1 a2 = Ok g /\ norm6 1 2 2 2 2 1 g = 0%R.
Proof. exists bl_st, bl. destruct bl_ok as [G1 [G2 G3]]. split; [exact G1|]. split; [exact G2|]. split; [exact G3|]. split; [exact bl_square|]. split; [exact bl_center|exact bl_blind]. Qed.
Print Assumptions C81_blind_start_refuted.

(** Decompositions as assumed exist; 3/5 |000><000| + 4/5 |111><111| is an operator as assumed; two sweeps with bond dimension one end off its square. *)
Theorem C81_case : qr4_exact qr4 /\ svd4_exact svd4 /\ (forall terr Dmin, good6 terr Dmin 1 svd6_one) /\ holds4 cx gz_st gz /\ oper_on cx [2; 2; 2] gz /\ truthful4 gz_st /\
  hs [2; 2; 2] (melem gz) (product [2; 2; 2] (melem gz) (melem gz)) <> c0 /\
  exists v ms, mpo_vproduct qr4 svd4 svd6_one (1 / 10) 1 1 true 2 (1 / 100) gz_st gz_st gz_st (fun _ => None) (fun _ => None) = Ok v /\
    variational [2; 2; 2] (1 / 10) 1 (product [2; 2; 2] (melem gz) (melem gz)) (melem gz) (vout v) ms (vlog v) /\ 2 <= length (vlog v) /\ (0 < hsdist2 [2; 2; 2]%nat (melem ms) (product [2; 2; 2]%nat (melem gz) (melem gz)))%R.
Proof.
  split; [exact qr4_ok|]. split; [exact svd4_ok|]. split; [exact svd6_one_good|]. destruct gz_ok as [G1 [G2 [G3 G4]]]. split; [exact G1|]. split; [exact G2|]. split; [exact G3|]. split; [exact G4|exact gz_lossy].
Qed.
Print Assumptions C81_case.
