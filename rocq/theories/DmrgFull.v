(** The tensors that the sweeps leave alone have the full dimension after the preparation. *)
From Coq Require Import List Arith Bool Lia Reals Ring_theory.
From Verif Require Import Base Disk SweepSpec NoiseSpec Dmrg DmrgSpec DmrgFacts VmpsInitFacts FiniteMps FmpsSpec EffHam EffHamSpec ChainSpec ChainFacts Cx DmrgUpdate DmrgVarSpec DmrgVar DmrgVarRun DmrgTrunc DmrgTruncSpec DmrgTruncRun DmrgVarInst ThinQr.
Import ListNotations.
Local Open Scope nat_scope.

Section Full.
Variable N : nat.
Variable ds : list nat.
Variable Dmax : nat.
Notation on_sites := (on_sites N ds).
Notation cmovesR := (moves_right cx c0 c1 cadd cmul cconj). Notation cmovesL := (moves_left cx c0 c1 cadd cmul cconj).
Variables (canoL canoR combL combR : cten -> cten -> cten * cten).
Hypothesis HcL : cmovesR canoL.
Hypothesis HcR : cmovesL canoR.
Hypothesis HbL : cmovesR combL.
Hypothesis HbR : cmovesL combR.
Hypothesis TL : thin_right canoL.
Hypothesis TR : thin_left canoR.
Hypothesis FL : full_right combL.
Hypothesis FR : full_left combR.
Notation bigL := (big_l Dmax). Notation bigR := (big_r Dmax).
Definition whole_l (t : cten) : Prop := d2 t = d0 t * d1 t /\ d2 t <= Dmax.
Definition whole_r (t : cten) : Prop := d0 t = d1 t * d2 t /\ d0 t <= Dmax.
Lemma prep_left_full : forall n i lb ts, i + n < N -> on_sites ts -> (forall j, j < i -> whole_l (ts j)) -> (n = 0 -> lb + 1 = i) ->
  let r := prep_left cten canoL bigL small_l combL n i lb ts in on_sites (snd r) /\ (forall j, j < fst r -> whole_l (snd r j)).
Proof.
  induction n as [|n IH]; intros i lb ts Hi HO HB H0; cbv zeta; cbn [prep_left].
  - cbn [fst snd]. split; [exact HO|]. intros j Hj. apply HB. specialize (H0 eq_refl). lia.
  - destruct (moved_r N ds canoL ts i HcL HO ltac:(lia)) as [A1 [A2 [A3 A4]]]. pose proof (TL (ts i) (ts (i + 1))) as T. rewrite <- A4, <- A2, <- A3 in T.
    assert (OL : forall j, j < i -> whole_l (set2 cten ts i (canoL (ts i) (ts (i + 1))) j)) by (intros j Hj; rewrite set2_o by lia; apply HB; exact Hj).
    set (ts1 := set2 cten ts i (canoL (ts i) (ts (i + 1)))) in *. clearbody ts1.
    destruct (bigL (ts1 i)) eqn:BG; [cbn [fst snd]; auto|]. unfold big_l in BG. apply Nat.ltb_ge in BG.
    assert (X : let ts2 := if small_l (ts1 i) then set2 cten ts1 i (combL (ts1 i) (ts1 (i + 1))) else ts1 in on_sites ts2 /\ (forall j, j < Datatypes.S i -> whole_l (ts2 j))).
    { cbv zeta. destruct (small_l (ts1 i)) eqn:SM; unfold small_l in SM.
      - destruct (moved_r N ds combL ts1 i HbL A1 ltac:(lia)) as [B1 [B2 [B3 B4]]]. split; [exact B1|]. intros j Hj. destruct (Nat.eq_dec j i) as [->|]; [unfold whole_l; rewrite B2, B3, B4, FL; auto|]. rewrite set2_o by lia. apply OL. lia.
      - apply Nat.ltb_ge in SM. split; [exact A1|]. intros j Hj. destruct (Nat.eq_dec j i) as [->|]; [unfold whole_l; lia|]. apply OL. lia. }
    cbv zeta in X. destruct X as [X1 X2]. apply (IH (Datatypes.S i)); auto; [lia|]. intros ->. cbn. lia.
Qed.
Lemma prep_right_full : forall n i rb ts, n <= i -> i < N -> on_sites ts -> (forall j, i < j < N -> whole_r (ts j)) -> (n = 0 -> rb = i + 1) ->
  let r := prep_right cten canoR bigR small_r combR n i rb ts in (forall j, fst r < j < N -> whole_r (snd r j)) /\ (forall j, j < i - n -> snd r j = ts j).
Proof.
  induction n as [|n IH]; intros i rb ts Hn Hi HO HB H0; cbv zeta; cbn [prep_right].
  - cbn [fst snd]. split; [|auto]. intros j Hj. apply HB. specialize (H0 eq_refl). lia.
  - assert (Ei : i - 1 + 1 = i) by lia. destruct (moved_l N ds canoR ts (i - 1) HcR HO ltac:(lia)) as [A1 [A2 [A3 [A4 _]]]]. rewrite Ei in *. pose proof (proj1 (TR (ts (i - 1)) (ts i))) as T. rewrite <- A4, <- A2, <- A3 in T.
    assert (OL : forall j, i < j < N -> whole_r (set2 cten ts (i - 1) (canoR (ts (i - 1)) (ts i)) j)) by (intros j Hj; rewrite set2_o by lia; apply HB; exact Hj).
    assert (OS : forall j, j < i - 1 -> set2 cten ts (i - 1) (canoR (ts (i - 1)) (ts i)) j = ts j) by (intros j Hj; apply set2_o; lia).
    set (ts1 := set2 cten ts (i - 1) (canoR (ts (i - 1)) (ts i))) in *. clearbody ts1.
    destruct (bigR (ts1 i)) eqn:BG; [cbn [fst snd]; split; [exact OL|intros; apply OS; lia]|]. unfold big_r in BG. apply Nat.ltb_ge in BG.
    assert (X : let ts2 := if small_r (ts1 i) then set2 cten ts1 (i - 1) (combR (ts1 (i - 1)) (ts1 i)) else ts1 in on_sites ts2 /\ (forall j, i - 1 < j < N -> whole_r (ts2 j)) /\ (forall j, j < i - 1 -> ts2 j = ts j)).
    { cbv zeta. destruct (small_r (ts1 i)) eqn:SM; unfold small_r in SM.
      - destruct (moved_l N ds combR ts1 (i - 1) HbR A1 ltac:(lia)) as [B1 [B2 [B3 [B4 _]]]]. rewrite Ei in *. split; [exact B1|]. split.
        + intros j Hj. destruct (Nat.eq_dec j i) as [->|]; [unfold whole_r; rewrite B2, B3, B4, FR; auto|]. rewrite set2_o by lia. apply OL. lia.
        + intros j Hj. rewrite set2_o by lia. apply OS. exact Hj.
      - apply Nat.ltb_ge in SM. split; [exact A1|]. split; [|exact OS]. intros j Hj. destruct (Nat.eq_dec j i) as [->|]; [unfold whole_r; lia|]. apply OL. lia. }
    cbv zeta in X. destruct X as [X1 [X2 X3]]. destruct (IH (i - 1) (if n =? 0 then i else rb) _ ltac:(lia) ltac:(lia) X1 X2) as [C2 C3]; [intros ->; cbn; lia|].
    split; [exact C2|]. intros j Hj. rewrite C3 by lia. apply X3. lia.
Qed.
Lemma prep_full : forall ts ts0 lb rb, 3 <= N -> on_sites ts -> prep cten canoL canoR bigL small_l bigR small_r combL combR N ts = (lb, rb, ts0) ->
  (forall l, l < lb -> d2 (ts0 l) = d0 (ts0 l) * d1 (ts0 l) /\ d2 (ts0 l) <= Dmax) /\ (forall l, rb < l < N -> d0 (ts0 l) = d1 (ts0 l) * d2 (ts0 l) /\ d0 (ts0 l) <= Dmax).
Proof.
  intros ts ts0 lb rb H3 HO HP. destruct (prep_range cten canoL canoR bigL small_l bigR small_r combL combR N ts lb rb ts0 H3 HP) as [R1 R2]. destruct (half_bounds N H3) as [B1 [B2 [B3 B4]]].
  unfold prep in HP. destruct (prep_left_full (half N) 0 0 ts) as [A1 A2]; auto; [lia|intros; lia|lia|].
  destruct (prep_left cten canoL bigL small_l combL (half N) 0 0 ts) as [l t1]. cbn [fst snd] in *.
  destruct (prep_right_full (N - 1 - N / 2) (N - 1) 0 t1) as [C2 C3]; auto; [lia|lia|intros; lia|lia|].
  destruct (prep_right cten canoR bigR small_r combR (N - 1 - N / 2) (N - 1) 0 t1) as [r t2]. injection HP as -> -> ->. cbn [fst snd] in *.
  split; [intros q Hq; rewrite C3 by lia; apply A2; exact Hq|exact C2].
Qed.
End Full.

(** five sites with bonds 1, 1, 4, 2 *)
Definition w_ts (i : nat) : cten :=
  match i with 2 => mkTen 1 2 4 (fun _ _ _ => c1) | 3 => mkTen 4 2 2 (fun _ _ _ => c1) | 4 => mkTen 2 2 1 (fun _ _ _ => c1) | _ => mkTen 1 2 1 (fun _ _ _ => c1) end.
Lemma w_outside : on_sites 5 [2; 2; 2; 2; 2] w_ts /\ exists ts0, prep cten xright qleft (big_l 4) small_l (big_r 4) small_r xright xleft 5 w_ts = (1, 3, ts0) /\ d2 (w_ts 0) < 2 /\ d2 (ts0 0) = 2 /\ d0 (ts0 4) = 2.
Proof.
  split; [split; [cbn; auto 10|reflexivity]|]. exists (snd (prep cten xright qleft (big_l 4) small_l (big_r 4) small_r xright xleft 5 w_ts)).
  assert (E : fst (prep cten xright qleft (big_l 4) small_l (big_r 4) small_r xright xleft 5 w_ts) = (1, 3)) by (vm_compute; reflexivity).
  split; [|split; [cbn; lia|split; vm_compute; reflexivity]]. rewrite <- E. apply surjective_pairing.
Qed.
