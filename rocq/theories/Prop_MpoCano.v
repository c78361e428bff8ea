(** Centralize, Truncate and Normalize of a FiniteMPO.  C80. *)
From Coq Require Import List Arith Lia Bool ZArith Reals Lra.
From Verif Require Import Base FiniteMps FmpsSpec EffHam EffHamSpec FinMpo FinMpoSpec FinMpoExp Cx GVec TruncMps TruncMpsInst MpoCano MpoCanoSpec MpoCanoRun MpoTrunc MpoCanoInst.
Import ListNotations.
Local Open Scope nat_scope.

(** Centralize(k) keeps the operator; the tensors left of k are left canonical, those right of it right canonical; the flags say so, the center is k. *)
Theorem C80_centralize : forall qr svd (dbg : bool) ds st ts k, qr4_exact qr -> svd4_exact svd -> holds4 cx st ts -> oper_on cx ds ts -> truthful4 st -> k < length ts ->
  exists st' l p r, mcentralize qr svd dbg (Z.of_nat k) st = Ok st' /\ holds4 cx st' (l ++ p :: r) /\ oper_on cx ds (l ++ p :: r) /\ same_oper ds (melem (l ++ p :: r)) (melem ts) /\
    length l = k /\ Forall left4 l /\ Forall right4 r /\ truthful4 st' /\ mcenter st' = Z.of_nat k /\
    (forall j, j < k -> nth_error (mtypes st') j = Some LEFT) /\ (forall j, k < j < length ts -> nth_error (mtypes st') j = Some RIGHT).
Proof.
  intros qr svd dbg ds st ts k Q S H1 H2 H3 H4. destruct (mcentral_ok qr svd Q S dbg ts st k H1 (proj1 H2) H3 H4) as [st' [l [p [r [A1 [A2 [A3 [A4 [A5 [A6 [A7 [A8 [A9 A10]]]]]]]]]]]]].
  destruct (same4_oper ds ts _ H2 A3) as [B1 B2]. exists st', l, p, r. split; [exact A1|]. split; [exact A2|]. split; [exact B1|]. split; [exact B2|]. split; [exact A6|]. split; [exact A7|]. split; [exact A8|]. split; [exact A4|]. split; [exact A5|]. split; [exact A9|exact A10].
Qed.
Print Assumptions C80_centralize.
(** A center outside a chain is never accepted, with or without asserts. *)
Theorem C80_range : forall qr svd dbg k st st', mtens st <> [] -> mcentralize qr svd dbg k st = Ok st' -> (0 <= k < Z.of_nat (length (mtens st)))%Z.
Proof. intros qr svd dbg k st st' HN H. destruct (central_range qr svd dbg k st st' H); [assumption|contradiction]. Qed.
Print Assumptions C80_range.

(** Normalize of a centralized object returns the norm of the operator and leaves the operator divided by it. *)
Theorem C80_normalize : forall qr svd (dbg : bool) ds st ts k st1, qr4_exact qr -> svd4_exact svd -> holds4 cx st ts -> oper_on cx ds ts -> truthful4 st -> k < length ts -> hs2 ds (melem ts) <> 0%R ->
  mcentralize qr svd dbg (Z.of_nat k) st = Ok st1 ->
  exists st2 ts2, cnormalize st1 = Ok (cre (sqrt (hs2 ds (melem ts))), st2) /\ holds4 cx st2 ts2 /\ oper_on cx ds ts2 /\ mcenter st2 = Z.of_nat k /\
    same_oper ds (melem ts2) (fun c c' => cmul (cre (/ sqrt (hs2 ds (melem ts)))) (melem ts c c')) /\ hs2 ds (melem ts2) = 1%R.
Proof.
  intros qr svd dbg ds st ts k st1 Q S H1 H2 H3 H4 H5 H6. destruct (mcentral_ok qr svd Q S dbg ts st k H1 (proj1 H2) H3 H4) as [st' [l [p [r [A1 [A2 [A3 [A4 [A5 [A6 [A7 [A8 _]]]]]]]]]]]].
  rewrite H6 in A1. injection A1 as <-. destruct (same4_oper ds ts _ H2 A3) as [B1 B2].
  assert (E : hs2 ds (melem (l ++ p :: r)) = hs2 ds (melem ts)).
  { unfold hs2, hs. f_equal. apply csum_ext. intros c Hc. apply csum_ext. intros c' Hc'. rewrite (B2 c c' Hc Hc'). reflexivity. }
  destruct (normalize_ok ds st1 l p r A2 B1 A7 A8) as [st2 [ts2 [C1 [C2 [C3 [C4 [C5 C6]]]]]]].
  - unfold where_. rewrite A5. destruct (Z.eqb_spec (Z.of_nat k) (-1)); [lia|]. cbn [negb]. rewrite Nat2Z.id. congruence.
  - lia.
  - rewrite E. exact H5.
  - rewrite E in C1, C5. exists st2, ts2. split; [exact C1|]. split; [exact C2|]. split; [exact C3|]. split; [congruence|]. split; [|exact C6].
    intros c c' Hc Hc'. rewrite C5 by auto. rewrite (B2 c c' Hc Hc'). reflexivity.
Qed.
Print Assumptions C80_normalize.
(** Without a center it divides by the norm of the first tensor: here it returns 1 for an operator of norm 2 and leaves one of norm 2. *)
Theorem C80_normalize_uncentered_refuted : exists st ts, holds4 cx st ts /\ oper_on cx [2; 2] ts /\ truthful4 st /\ mcenter st = (-1)%Z /\ hs2 [2; 2] (melem ts) = 4%R /\
  exists st' ts', cnormalize st = Ok (cre 1, st') /\ holds4 cx st' ts' /\ hs2 [2; 2] (melem ts') = 4%R.
Proof.
  exists pq_st, pq. split; [split; reflexivity|]. destruct pq_norm as [P1 P2]. split; [exact P1|]. split. { intros i. cbn [pq_st mtypes]. split; destruct i as [|[|[|i]]]; cbn; intros; discriminate. }
  split; [reflexivity|]. split; [exact P2|exact pq_wrong].
Qed.
Print Assumptions C80_normalize_uncentered_refuted.

(** Truncate: an operator on the same sites; bond dimensions are the printed ones, at most Dmax; its overlap with the old operator is its squared norm,
    which is the old one times the product of 1 - e over the printed truncation errors; every tensor but the first is right canonical and flagged so, no center. *)
Theorem C80_truncate : forall qr svd svdt terr Dmin Dmax (dbg : bool) ds st ts, qr4_exact qr -> svd4_exact svd -> good4 terr Dmin Dmax svdt ->
  holds4 cx st ts -> oper_on cx ds ts -> truthful4 st -> (if dbg then 2 else 1) <= length ts -> hs2 ds (melem ts) <> 0%R ->
  exists st' ts' out, mpo_truncate qr svd svdt dbg terr Dmin Dmax st = Ok (st', out) /\ holds4 cx st' ts' /\ oper_on cx ds ts' /\ truthful4 st' /\
    map (@m0 cx) (tl ts') = rev (map snd out) /\ Forall (fun o => (0 <= fst o < 1)%R /\ snd o <= Dmax /\ (snd o < Dmax -> (fst o <= terr)%R)) out /\ length out = length ts - 1 /\
    hs ds (melem ts') (melem ts) = hs ds (melem ts') (melem ts') /\ hs2 ds (melem ts') = (remains (map fst out) * hs2 ds (melem ts))%R /\
    (2 <= length ts -> mcenter st' = (-1)%Z /\ mtypes st' = NONE :: repeat RIGHT (length ts - 1)).
Proof.
  intros qr svd svdt terr Dmin Dmax dbg ds st ts Q S V H1 H2 H3 H4 H5.
  destruct (trunc_ok qr svd svdt Q S terr Dmin Dmax V dbg ds st ts H1 H2 H3 H4 H5) as [st' [ts' [out [A1 [A2 [A3 [A4 [A5 [A6 [A7 [A8 [A9 [A10 _]]]]]]]]]]]]].
  exists st', ts', out. do 8 (split; [assumption|]). split; [|exact A10]. unfold hs2 at 1. rewrite A9, hs_re. unfold cre, cmul. cbn [fst snd]. ring.
Qed.
Print Assumptions C80_truncate.
(** The squared distance from the old operator is the lost part of its squared norm, at most the sum of the printed errors times it; without printed errors the operator is the old one. *)
Theorem C80_distance : forall qr svd svdt terr Dmin Dmax (dbg : bool) ds st ts st' ts' out, qr4_exact qr -> svd4_exact svd -> good4 terr Dmin Dmax svdt ->
  holds4 cx st ts -> oper_on cx ds ts -> truthful4 st -> (if dbg then 2 else 1) <= length ts -> hs2 ds (melem ts) <> 0%R ->
  mpo_truncate qr svd svdt dbg terr Dmin Dmax st = Ok (st', out) -> holds4 cx st' ts' ->
  hsdist2 ds (melem ts') (melem ts) = ((1 - remains (map fst out)) * hs2 ds (melem ts))%R /\ (0 <= hsdist2 ds (melem ts') (melem ts) <= lost_sum (map fst out) * hs2 ds (melem ts))%R /\
  (Forall (fun o => fst o = 0%R) out -> same_oper ds (melem ts') (melem ts)).
Proof.
  intros qr svd svdt terr Dmin Dmax dbg ds st ts st' ts' out Q S V H1 H2 H3 H4 H5 H6 H7.
  destruct (trunc_ok qr svd svdt Q S terr Dmin Dmax V dbg ds st ts H1 H2 H3 H4 H5) as [st2 [ts2 [out2 [A1 [A2 [A3 [A4 [A5 [A6 [A7 [A8 [A9 [A10 _]]]]]]]]]]]]].
  rewrite H6 in A1. injection A1 as <- <-. assert (ts' = ts2) as -> by (apply map_some_inj; rewrite <- (proj1 H7); exact (proj1 A2)).
  assert (D : hsdist2 ds (melem ts2) (melem ts) = ((1 - remains (map fst out)) * hs2 ds (melem ts))%R).
  { rewrite (proj_dist _ _ _ A8). unfold hs2 at 2. rewrite A9, hs_re. unfold cre, cmul. cbn [fst snd]. ring. }
  split; [exact D|]. destruct (hs_pos ds (melem ts)) as [P _]. change (fst (hs ds (melem ts) (melem ts))) with (hs2 ds (melem ts)) in P.
  destruct (remains_bound (map fst out)) as [R1 [R2 R3]]. { apply Forall_map. eapply Forall_impl; [|exact A6]. intros o [X _]. exact X. }
  split. { rewrite D. split; [apply Rmult_le_pos; lra|apply Rmult_le_compat_r; lra]. }
  intros HZ. apply zero_dist. rewrite D. replace (remains (map fst out)) with 1%R; [ring|]. clear -HZ. induction HZ as [|o out E _ IH]; [reflexivity|]. cbn [map remains fold_right]. fold (remains (map fst out)). rewrite <- IH, E. ring.
Qed.
Print Assumptions C80_distance.
(** Normalize after Truncate returns the norm of the truncated operator although there is no center: only the first tensor is not canonical. *)
Theorem C80_truncate_normalize : forall qr svd svdt terr Dmin Dmax (dbg : bool) ds st ts st1 ts1 out, qr4_exact qr -> svd4_exact svd -> good4 terr Dmin Dmax svdt ->
  holds4 cx st ts -> oper_on cx ds ts -> truthful4 st -> 2 <= length ts -> hs2 ds (melem ts) <> 0%R ->
  mpo_truncate qr svd svdt dbg terr Dmin Dmax st = Ok (st1, out) -> holds4 cx st1 ts1 ->
  exists st2 ts2, cnormalize st1 = Ok (cre (sqrt (hs2 ds (melem ts1))), st2) /\ holds4 cx st2 ts2 /\ oper_on cx ds ts2 /\
    same_oper ds (melem ts2) (fun c c' => cmul (cre (/ sqrt (hs2 ds (melem ts1)))) (melem ts1 c c')) /\ hs2 ds (melem ts2) = 1%R.
Proof.
  intros qr svd svdt terr Dmin Dmax dbg ds st ts st1 ts1 out Q S V H1 H2 H3 H4 H5 H6 H7.
  destruct (trunc_ok qr svd svdt Q S terr Dmin Dmax V dbg ds st ts H1 H2 H3 ltac:(destruct dbg; lia) H5) as [st2 [ts2 [out2 [A1 [A2 [A3 [A4 [A5 [A6 [A7 [A8 [A9 [A10 [a [r [-> AR]]]]]]]]]]]]]]]].
  rewrite H6 in A1. injection A1 as <- <-. assert (ts1 = a :: r) as -> by (apply map_some_inj; rewrite <- (proj1 H7); exact (proj1 A2)).
  destruct (A10 H4) as [C1 _]. destruct (normalize_ok ds st1 [] a r A2 A3 (Forall_nil _) AR) as [st2 [ts2 [D1 [D2 [D3 [D4 [D5 D6]]]]]]].
  - unfold where_. rewrite C1. reflexivity.
  - lia.
  - cbn [app]. unfold hs2. rewrite A9, hs_re. destruct (remains_bound (map fst out)) as [R1 _]. { apply Forall_map. eapply Forall_impl; [|exact A6]. intros o [X _]. exact X. }
    unfold cre, cmul. cbn [fst snd]. intros Z. apply H5. replace (remains (map fst out) * hs2 ds (melem ts) - 0 * 0)%R with (remains (map fst out) * hs2 ds (melem ts))%R in Z by ring. apply Rmult_integral in Z. destruct Z; [lra|assumption].
  - exists st2, ts2. split; [exact D1|]. split; [exact D2|]. split; [exact D3|]. split; [exact D5|exact D6].
Qed.
Print Assumptions C80_truncate_normalize.
(** Fewer than two sites abort when asserts are on; an empty chain is undefined when they are off. *)
Theorem C80_short : forall qr svd svdt terr Dmin Dmax st, length (mtens st) < 2 ->
  mpo_truncate qr svd svdt true terr Dmin Dmax st = Abort /\ (mtens st = [] -> mpo_truncate qr svd svdt false terr Dmin Dmax st = Ub).
Proof.
  intros qr svd svdt terr Dmin Dmax st H. unfold mpo_truncate. split; [cbn [assert_]; rewrite (proj2 (Nat.leb_gt _ _)) by lia; reflexivity|]. intros ->. reflexivity.
Qed.
Print Assumptions C80_short.

(** Decompositions as assumed exist, and 3/5 |00><00| + 4/5 |11><11| is an operator as assumed; truncated to bond dimension one it loses something. *)
Theorem C80_case : qr4_exact qr4 /\ svd4_exact svd4 /\ (forall terr Dmin, good4 terr Dmin 1 svd4_one) /\
  holds4 cx pp_st pp /\ oper_on cx [2; 2] pp /\ truthful4 pp_st /\ 2 <= length pp /\ hs2 [2; 2] (melem pp) <> 0%R /\
  exists st' ts' e D, mpo_truncate qr4 svd4 svd4_one true (1 / 10) 1 1 pp_st = Ok (st', [(e, D)]) /\ holds4 cx st' ts' /\ (0 < e < 1)%R /\ D = 1 /\ hsdist2 [2; 2] (melem ts') (melem pp) = e.
Proof.
  destruct pp_ok as [G1 [G2 [G3 [G4 G5]]]]. split; [exact qr4_ok|]. split; [exact svd4_ok|]. split; [exact svd4_one_good|]. split; [exact G1|]. split; [exact G2|]. split; [exact G3|]. split; [exact G4|]. split; [exact G5|]. exact pp_lossy.
Qed.
Print Assumptions C80_case.
