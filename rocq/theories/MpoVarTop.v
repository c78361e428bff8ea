(** The whole variational product and the square. *)
From Coq Require Import List Arith Lia Bool ZArith Reals Lra Psatz Ring.
From Verif Require Import Base CoefOpAlg Numeric FiniteMps FmpsSpec FmpsFacts EffHam EffHamSpec EffHamFacts ChainSpec ChainFacts ChainOne MeasureFacts VmpsState Legs VmpsEnv FinMpo FinMpoSpec FinMpoFacts FinMpoExp Cx GVec DmrgStep
  TruncMps TruncMpsSpec TruncMpsMath TruncMpsFacts MpoCano MpoCanoSpec MpoMath MpoCanoFacts MpoCanoRun MpoTrunc MpoCanoInst MpoVar MpoSquare MpoVarSpec MpoVarEnv MpoVarStep MpoVarRun.
Import ListNotations.
Local Open Scope nat_scope.

(** *** operators that agree *)
Lemma hs_same : forall ds A A' B B', same_oper ds A A' -> same_oper ds B B' -> hs ds A B = hs ds A' B'.
Proof. intros ds A A' B B' H1 H2. unfold hs. apply csum_ext. intros c Hc. apply csum_ext. intros c' Hc'. rewrite (H1 c c' Hc Hc'), (H2 c c' Hc Hc'). reflexivity. Qed.
Lemma hs2_same : forall ds A A', same_oper ds A A' -> hs2 ds A = hs2 ds A'.
Proof. intros ds A A' H. unfold hs2. rewrite (hs_same ds A A' A A'); auto. Qed.
Lemma dist_same : forall ds A A' B B', same_oper ds A A' -> same_oper ds B B' -> hsdist2 ds A B = hsdist2 ds A' B'.
Proof. intros ds A A' B B' H1 H2. unfold hsdist2. apply hs2_same. intros c c' Hc Hc'. unfold o_sub. rewrite (H1 c c' Hc Hc'), (H2 c c' Hc Hc'). reflexivity. Qed.
Lemma same_sym : forall ds A B, same_oper ds A B -> same_oper ds B A.
Proof. intros ds A B H c c' Hc Hc'. symmetry. apply H; auto. Qed.
Lemma same_refl : forall ds A, same_oper ds A A.
Proof. intros ds A c c' _ _. reflexivity. Qed.
Lemma prod_same : forall ds A B, oper_on cx ds A -> oper_on cx ds B -> same_oper ds (melem (prods A B)) (product ds (melem A) (melem B)).
Proof.
  intros ds A B [FA [A1 A2]] [FB [B1 B2]] c c' Hc Hc'. unfold melem, elem, product, o_mul.
  assert (LA : length A = length ds) by (rewrite <- A1, map_length; reflexivity). assert (LB : length B = length ds) by (rewrite <- B1, map_length; reflexivity).
  rewrite (prod_elem cx c0 c1 cadd cmul csub copp cx_ring A B 1 1 c c' 0); auto; try congruence; try lia; rewrite ?LA; try (apply configs_len; assumption).
  rewrite A1. reflexivity.
Qed.

(** *** null check, flags *)
Lemma filled_all : forall n i (st : cmpo), i + n = length (mtens st) -> length (mtypes st) = length (mtens st) -> Forall (fun x => x <> None) (mtens st) ->
  exists ty z, vfilled i n st = Ok (true, mkFmpo (mtens st) ty z) /\ length ty = length (mtypes st) /\ (forall k, k < i -> nth_error ty k = nth_error (mtypes st) k) /\ (forall k, i <= k < i + n -> nth_error ty k = Some NONE).
Proof.
  induction n as [|n IH]; intros i st HN HY HF.
  - exists (mtypes st), (mcenter st). cbn [vfilled]. destruct st as [T ty z]. cbn [mtens mtypes mcenter]. repeat split; auto. intros k Hk. lia.
  - cbn [vfilled]. rewrite mtouch_ok by lia. cbn [bind mtens]. destruct (vget_ok _ (mtens st) i ltac:(lia)) as [x [E1 E2]]. rewrite E1. cbn [bind].
    destruct x as [t|]. 2:{ exfalso. apply nth_error_In in E2. rewrite Forall_forall in HF. apply (HF _ E2). reflexivity. }
    destruct (IH (i + 1) (mkFmpo (mtens st) (upd (mtypes st) i NONE) (-1)%Z)) as [ty [z [F1 [F2 [F3 F4]]]]]; cbn [mtens mtypes] in *; rewrite ?upd_length; auto; try lia.
    exists ty, z. split; [exact F1|]. split; [rewrite F2, upd_length; reflexivity|]. split.
    + intros k Hk. rewrite F3 by lia. rewrite nth_error_upd. destruct (Nat.eqb_spec i k); [lia|reflexivity].
    + intros k Hk. destruct (Nat.eq_dec k i) as [->|]; [|apply F4; lia]. rewrite F3 by lia. rewrite nth_error_upd, Nat.eqb_refl. destruct (Nat.ltb_spec i (length (mtypes st))); [reflexivity|lia].
Qed.
Lemma filled_null : forall n i (st : cmpo) j, i + n = length (mtens st) -> length (mtypes st) = length (mtens st) -> i <= j < i + n -> nth_error (mtens st) j = Some None -> exists out, vfilled i n st = Ok (false, out).
Proof.
  induction n as [|n IH]; intros i st j HN HY Hj HE; [lia|].
  cbn [vfilled]. rewrite mtouch_ok by lia. cbn [bind mtens]. destruct (vget_ok _ (mtens st) i ltac:(lia)) as [x [E1 E2]]. rewrite E1. cbn [bind].
  destruct x as [t|]; [|eauto]. apply IH with j; cbn [mtens mtypes]; rewrite ?upd_length; auto; try lia. destruct (Nat.eq_dec i j) as [->|]; [congruence|lia].
Qed.
Lemma flag_loop : forall n s (st : cmpo), s + n <= length (mtypes st) -> exists ty, for_loop s n (fun i => mflag i RIGHT) st = Ok (mkFmpo (mtens st) ty (mcenter st)) /\ length ty = length (mtypes st) /\
  forall k, nth_error ty k = if (s <=? k) && (k <? s + n) then Some RIGHT else nth_error (mtypes st) k.
Proof.
  induction n as [|n IH]; intros s st H.
  - exists (mtypes st). cbn [for_loop]. destruct st as [T ty z]. split; [reflexivity|]. split; [reflexivity|]. intros k. cbn [mtypes]. destruct (Nat.leb_spec s k), (Nat.ltb_spec k (s + 0)); cbn; auto; lia.
  - cbn [for_loop]. rewrite mflag_ok by lia. cbn [bind]. destruct (IH (S s) (mkFmpo (mtens st) (upd (mtypes st) s RIGHT) (mcenter st))) as [ty [F1 [F2 F3]]]; [cbn [mtypes]; rewrite upd_length; lia|].
    cbn [mtens mtypes mcenter] in *. exists ty. split; [exact F1|]. split; [rewrite F2, upd_length; reflexivity|]. intros k. rewrite F3, nth_error_upd.
    destruct (Nat.leb_spec (S s) k), (Nat.ltb_spec k (S s + n)), (Nat.leb_spec s k), (Nat.ltb_spec k (s + S n)); cbn [andb]; try lia; try reflexivity;
      destruct (Nat.eqb_spec s k); try lia; try reflexivity; destruct (Nat.ltb_spec s (length (mtypes st))); try lia; reflexivity.
Qed.
Lemma flags_nth : forall N k, nth_error (flags_center1 N) k = match k with 0 => Some LEFT | 1 => Some NONE | S (S j) => if j <? N - 2 then Some RIGHT else None end.
Proof.
  intros N [|[|k]]; try reflexivity. cbn [flags_center1 nth_error]. destruct (Nat.ltb_spec k (N - 2)); [apply nth_error_repeat; auto|]. apply nth_error_None. rewrite repeat_length. auto.
Qed.
Lemma vflags_ok : forall N (st : cmpo), 2 <= N -> length (mtypes st) = N -> vflags N st = Ok (mkFmpo (mtens st) (flags_center1 N) 1%Z).
Proof.
  intros N st H HY. unfold vflags. sm. sm. destruct (flag_loop (N - 2) 2 (mkFmpo (mtens st) (upd (upd (mtypes st) 0 LEFT) 1 NONE) (mcenter st))) as [ty [F1 [F2 F3]]]; [cbn [mtypes]; rewrite !upd_length; lia|].
  rewrite F1. cbn [bind mtens mtypes mcenter] in *. f_equal. f_equal. apply nth_error_ext. intros k. rewrite F3, flags_nth. rewrite !nth_error_upd, !upd_length, HY.
  destruct k as [|[|k]].
  - destruct N; [lia|]. reflexivity.
  - destruct N as [|[|N]]; try lia. reflexivity.
  - cbn [Nat.leb andb]. replace (S (S k) <? 2 + (N - 2)) with (k <? N - 2) by (destruct (Nat.ltb_spec k (N - 2)), (Nat.ltb_spec (S (S k)) (2 + (N - 2))); auto; lia).
    destruct (Nat.ltb_spec k (N - 2)); [reflexivity|]. cbn [Nat.eqb]. apply nth_error_None. lia.
Qed.

Section Top.
Variables (qr : c4 -> c4 * cmat) (svd : c4 -> cmat * list real * c4).
Hypothesis QR : qr4_exact qr.
Hypothesis SV : svd4_exact svd.
Variable svd6 : real -> nat -> nat -> cg -> c4 * list real * c4 * real.
Variables (terr : real) (Dmin Dmax : nat).
Variables (ds : list nat) (ts1 ts2 gs : list c4) (P1 P2 out : cmpo).
Hypothesis O1 : oper_on cx ds ts1.
Hypothesis O2 : oper_on cx ds ts2.
Hypothesis OG : oper_on cx ds gs.
Hypothesis T1 : mtens P1 = map Some ts1.
Hypothesis T2 : mtens P2 = map Some ts2.
(** the operator the sweeps start from: the output if it has no null pointer, mpo1 otherwise *)
Definition starts : Prop := holds4 cx out gs \/ (length (mtens out) = length ts1 /\ length (mtypes out) = length ts1 /\ In None (mtens out) /\ gs = ts1 /\ holds4 cx P1 ts1 /\ truthful4 P1).
Hypothesis ST : starts.
Lemma len_same : forall a b, oper_on cx ds a -> oper_on cx ds b -> length a = length b.
Proof. intros a b [_ [A _]] [_ [B _]]. rewrite <- B in A. apply (f_equal (@length nat)) in A. rewrite !map_length in A. exact A. Qed.
Lemma begin_ok : forall dbg sweeps tol fl fr, 2 <= length ts1 -> exists out1 p q r ar br a1 a2 b1 b2 fl' fr',
  mpo_vproduct qr svd svd6 terr Dmin Dmax dbg sweeps tol P1 P2 out fl fr =
    (let! v := vsweeps svd6 terr Dmin Dmax tol P1 P2 sweeps 0 0%R (mkV out1 fl' fr' [] []) in let! out := vflags (length ts1) (vout v) in Ok (mkV out (vl v) (vr v) (vlog v) (vnorms v))) /\
  holds4 cx out1 (p :: q :: r) /\ same_oper ds (melem (p :: q :: r)) (melem gs) /\ Forall right4 (q :: r) /\ cut3 ds ts1 ts2 [] r [] ar [] br p q a1 a2 b1 b2 /\ lfiles fl' [] [] [] /\ rfiles fr' r ar br.
Proof.
  intros dbg sweeps tol fl fr N2. assert (LG := len_same gs ts1 OG O1). unfold mpo_vproduct. rewrite T1, map_length. destruct (Nat.ltb_spec (length ts1) 2); [lia|].
  assert (C : exists x, vfilled 0 (length ts1) out = Ok x /\ holds4 cx (if fst x then snd x else P1) gs /\ truthful4 (if fst x then snd x else P1)).
  { destruct ST as [[HT HY]|[L1 [L2 [I [E [HP TP]]]]]].
    - destruct (filled_all (length ts1) 0 out) as [ty [z [F1 [F2 [F3 F4]]]]].
      { rewrite HT, map_length. lia. } { rewrite HT, map_length. lia. } { rewrite HT. apply Forall_forall. intros x Hx. apply in_map_iff in Hx. destruct Hx as [t [<- _]]. discriminate. }
      eexists. split; [exact F1|]. cbn [fst snd]. split; [split; [exact HT|cbn [mtypes]; congruence]|]. intros i. cbn [mtypes mtens]. destruct (Nat.lt_ge_cases i (length ts1)) as [Hi|Hi].
      + rewrite F4 by lia. split; discriminate.
      + assert (N : nth_error ty i = None) by (apply nth_error_None; lia). rewrite N. split; discriminate.
    - apply In_nth_error in I. destruct I as [j Hj]. assert (j < length (mtens out)) by (apply nth_error_Some; congruence).
      destruct (filled_null (length ts1) 0 out j) as [o F]; auto; try lia. eexists. split; [exact F|]. cbn [fst]. rewrite E. auto. }
  destruct C as [x [C1 [C2 C3]]]. rewrite C1. cbn [bind]. destruct (mcentral_ok qr svd QR SV dbg gs _ 0 C2 (proj1 OG) C3 ltac:(lia)) as [out1 [l [p [r [M1 [M2 [M3 [M4 [M5 [M6 [M7 [M8 _]]]]]]]]]]]].
  change (Z.of_nat 0) with 0%Z in M1. rewrite M1. cbn [bind]. destruct l; [|discriminate]. cbn [app] in *. destruct (same4_oper ds gs _ OG M3) as [OM SM]. assert (LM := len_same _ _ OM O1).
  destruct r as [|q r]; [cbn in LM; lia|].
  destruct (vgen_ok ds ts1 ts2 P1 P2 O1 O2 T1 T2 dbg out1 p q r fl fr N2 (proj1 M2) OM ltac:(lia)) as [fl' [fr' [ar [br [a1 [a2 [b1 [b2 [V1 [V2 [V3 V4]]]]]]]]]]]. rewrite V1. cbn [bind fst snd].
  exists out1, p, q, r, ar, br, a1, a2, b1, b2, fl', fr'. split; [reflexivity|]. auto 10.
Qed.
(** *** three sites and more *)
Lemma vproduct_ok : forall dbg sweeps tol fl fr, good6 terr Dmin Dmax svd6 -> 3 <= length ts1 -> 1 <= sweeps -> hs ds (melem gs) (product ds (melem ts1) (melem ts2)) <> c0 ->
  exists v ms, mpo_vproduct qr svd svd6 terr Dmin Dmax dbg sweeps tol P1 P2 out fl fr = Ok v /\
    variational ds terr Dmax (product ds (melem ts1) (melem ts2)) (melem gs) (vout v) ms (vlog v) /\
    length (vlog v) = length (vnorms v) * (2 * (length ts1 - 2)) /\ 1 <= length (vnorms v) <= sweeps /\
    last (vnorms v) 0%R = sqrt (hs2 ds (melem ms)) /\
    (length (vnorms v) < sweeps -> exists pre b c, vnorms v = pre ++ [b; c] /\ b <> 0%R /\ (Rabs (c - b) / b < tol)%R).
Proof.
  intros dbg sweeps tol fl fr GOOD N3 NS NZ. destruct (begin_ok dbg sweeps tol fl fr ltac:(lia)) as [out1 [p [q [r [ar [br [a1 [a2 [b1 [b2 [fl' [fr' [E [H1 [H2 [H3 [H4 [H5 H6]]]]]]]]]]]]]]]]]].
  pose proof (prod_same ds ts1 ts2 O1 O2) as PS. set (X := product ds (melem ts1) (melem ts2)) in *.
  assert (S : start ds ts1 ts2 (mkV out1 fl' fr' [] []) (p :: q :: r)).
  { exists p, q, r, ar, br, a1, a2, b1, b2. cbn [vout vl vr]. split; [reflexivity|]. split; [exact H4|]. split; [exact H1|]. split; [inversion H3; auto|]. split; [|auto].
    rewrite (hs_same ds _ (melem gs) _ X); auto. }
  destruct sweeps as [|k]; [lia|]. destruct (sweeps_ok svd6 terr Dmin Dmax GOOD ds ts1 ts2 P1 P2 O1 O2 T1 T2 tol k 0 0%R _ _ N3 S ltac:(lia)) as [v [ms [e [kk [lg [norms [W1 [W2 [W3 [W4 [W5 [W6 [W7 [W8 W9]]]]]]]]]]]]]].
  rewrite E, W1. cbn [bind]. destruct W2 as [_ [_ [_ [_ [_ [_ [_ [_ [_ [_ [_ [[WT WY] _]]]]]]]]]]]]. destruct W3 as [a [p' [q' [r' [EM [La [Rr [BT SR]]]]]]]].
  pose proof (sr_o _ _ _ _ _ _ _ _ _ _ _ SR) as OM. pose proof (sr_p _ _ _ _ _ _ _ _ _ _ _ SR) as PM. pose proof (sr_nz _ _ _ _ _ _ _ _ _ _ _ SR) as NM. cbn [app] in OM, PM, NM. rewrite <- EM in OM, PM, NM.
  assert (LM := len_same _ _ OM O1).
  rewrite vflags_ok by lia. cbn [bind]. eexists. exists ms. split; [reflexivity|]. cbn [vout vlog vnorms vl vr]. cbn [vlog vnorms app] in W4, W7.
  rewrite (hs_same ds _ (melem ms) _ X (same_refl _ _) PS) in PM, NM. destruct W6 as [L1 L2]. unfold dist2 in L2.
  rewrite (dist_same ds (melem ms) (melem ms) _ X (same_refl _ _) PS), (dist_same ds (melem (p :: q :: r)) (melem gs) _ X H2 PS), (hs2_same ds _ X PS) in L2.
  split; [|split; [rewrite W4, W7; exact W5|]; split; [rewrite W7, app_length; cbn [length]; lia|]; split; [rewrite W7; apply last_last|]].
  - split; cbn [mtens mtypes mcenter].
    + split; [exact WT|]. cbn [mtypes]. rewrite <- LM, EM. cbn [length flags_center1]. rewrite repeat_length. lia.
    + exact OM.
    + rewrite LM. auto.
    + intros i. cbn [mtens mtypes]. rewrite flags_nth, WT, EM. destruct i as [|[|i]]; [split; [intros _; exists a; auto|discriminate]|split; discriminate|].
      split; [destruct (_ <? _); discriminate|]. intros HI. cbn [map nth_error]. destruct (Nat.ltb_spec i (length ts1 - 2)) as [Hi|Hi]; [|discriminate].
      assert (LL : length (q' :: r') = length ts1 - 2) by (rewrite <- LM, EM; cbn [length]; lia). destruct (nth_error (q' :: r') i) as [t|] eqn:ET. 2:{ apply nth_error_None in ET. lia. }
      exists t. split; [change (Some q' :: map Some r') with (map Some (q' :: r')); rewrite nth_error_map, ET; reflexivity|]. rewrite Forall_forall in Rr. apply Rr. eapply nth_error_In. exact ET.
    + split; [exact PM|]. intros Z. apply NM. rewrite PM, hs_re, Z. reflexivity.
    + apply proj_dist. exact PM.
    + rewrite W4. exact L1.
    + rewrite W4. exact L2.
    + rewrite EM. exact BT.
    + exists a, p', q', r'. split; [exact EM|]. intros u w OU. rewrite W4, last_last. cbn [fst].
      pose proof (step_rel_best terr Dmax ds ts1 ts2 O1 O2 [a] r' p' q' e (m3 p') u w (Forall_cons _ La (Forall_nil _)) ltac:(inversion Rr; auto) SR OU) as B. unfold dist2 in B. cbn [app] in B. rewrite <- EM in B.
      rewrite (dist_same ds (melem ms) (melem ms) _ X (same_refl _ _) PS), (dist_same ds (melem (a :: u :: w :: r')) _ _ X (same_refl _ _) PS), (hs2_same ds _ X PS) in B. exact B.
  - intros HN. rewrite W7, app_length in HN. cbn [length] in HN. destruct (W9 ltac:(lia)) as [pre [b [U1 [U2 U3]]]]. eauto 10.
Qed.
(** *** two sites, or no sweep: nothing is optimised *)
Lemma vsweeps_two : forall tol k sweep old v ms, length ts1 = 2 -> holds4 cx (vout v) ms -> length ms = 2 -> (exists e, vl v 0 = Some e) -> (exists e, vr v 0 = Some e) ->
  exists v', vsweeps svd6 terr Dmin Dmax tol P1 P2 k sweep old v = Ok v' /\ holds4 cx (vout v') ms /\ vlog v' = vlog v.
Proof.
  induction k as [|k IH]; intros sweep old v ms N2 [HT HY] LM [el EL] [er ER].
  - exists v. split; [reflexivity|]. split; [split; auto|reflexivity].
  - cbn [vsweeps]. unfold vsweep. rewrite T1, map_length, N2. unfold fread. rewrite EL. cbn [bind Nat.sub for_loop snd seq rev for_each]. rewrite ER. cbn [bind snd for_each].
    rewrite mtouch_ok by (rewrite ?HT, ?HY, ?map_length; lia). cbn [bind]. destruct ms as [|p [|q [|? ?]]]; try discriminate. erewrite mderef_ok by (cbn [mtens]; rewrite HT; reflexivity). cbn [bind].
    set (v1 := mkV _ _ _ _ _). assert (HO : holds4 cx (vout v1) [p; q]) by (split; [exact HT|cbn [v1 vout mtypes]; rewrite upd_length; exact HY]).
    destruct (_ && _).
    + exists v1. split; [reflexivity|]. split; [exact HO|reflexivity].
    + match goal with |- context [vsweeps _ _ _ _ _ _ _ k ?s ?o v1] => destruct (IH s o v1 [p; q] N2 HO eq_refl) as [v' [F1 [F2 F3]]] end; [exists el; exact EL|exists er; exact ER|]. exists v'. auto.
Qed.
Lemma vproduct_none : forall dbg sweeps tol fl fr, length ts1 = 2 \/ (2 <= length ts1 /\ sweeps = 0) ->
  exists v p r, mpo_vproduct qr svd svd6 terr Dmin Dmax dbg sweeps tol P1 P2 out fl fr = Ok v /\ holds4 cx (vout v) (p :: r) /\ oper_on cx ds (p :: r) /\ same_oper ds (melem (p :: r)) (melem gs) /\ Forall right4 r /\
    mtypes (vout v) = flags_center1 (length ts1) /\ mcenter (vout v) = 1%Z /\ vlog v = [].
Proof.
  intros dbg sweeps tol fl fr HC. destruct (begin_ok dbg sweeps tol fl fr ltac:(lia)) as [out1 [p [q [r [ar [br [a1 [a2 [b1 [b2 [fl' [fr' [E [H1 [H2 [H3 [H4 [H5 H6]]]]]]]]]]]]]]]]]].
  pose proof (c3_o _ _ _ _ _ _ _ _ _ _ _ _ _ _ _ H4) as OM. cbn [app] in OM. assert (LM := len_same _ _ OM O1). rewrite E.
  assert (C : exists v, vsweeps svd6 terr Dmin Dmax tol P1 P2 sweeps 0 0%R (mkV out1 fl' fr' [] []) = Ok v /\ holds4 cx (vout v) (p :: q :: r) /\ vlog v = []).
  { destruct HC as [HC|[HC ->]]; [|eexists; split; [reflexivity|]; auto].
    destruct (vsweeps_two tol sweeps 0 0%R (mkV out1 fl' fr' [] []) (p :: q :: r) HC H1 ltac:(lia)) as [v' [F1 [F2 F3]]]; cbn [vl vr].
    - destruct (H5 [] [] [] [] [] [] 1 1 1) as [e [G _]]; auto; try reflexivity. exists e. exact G.
    - destruct r; [|cbn in LM; lia]. destruct (H6 [] [] ar [] br [] 1 1 1) as [e [G _]]; try reflexivity; try (rewrite app_nil_r; reflexivity). exists e. exact G.
    - exists v'. auto. }
  destruct C as [v [C1 [C2 C3]]]. rewrite C1. cbn [bind]. destruct C2 as [C2 C2']. rewrite vflags_ok by lia. cbn [bind]. eexists. exists p, (q :: r). split; [reflexivity|]. cbn [vout vlog mtypes mcenter].
  split; [split; [exact C2|cbn [mtypes]; rewrite <- LM; cbn [length flags_center1]; rewrite repeat_length; lia]|]. auto 10.
Qed.
End Top.
(** fewer than two sites *)
Lemma vproduct_small : forall qr svd svd6 terr Dmin Dmax dbg sweeps tol P1 P2 out fl fr, length (mtens P1) < 2 -> mpo_vproduct qr svd svd6 terr Dmin Dmax dbg sweeps tol P1 P2 out fl fr = Ub.
Proof. intros. unfold mpo_vproduct. destruct (Nat.ltb_spec (length (mtens P1)) 2); [reflexivity|lia]. Qed.

(** *** Square *)
Lemma copy_loop : forall dbg (o : cmpo) n s (st : cmpo), s + n = length (mtens st) -> length (mtypes st) = length (mtens st) -> length (mtens o) = length (mtens st) -> Forall (fun x => x <> None) (mtens st) -> Forall (fun x => x <> None) (mtens o) ->
  (forall k, k < s -> nth_error (mtens st) k = nth_error (mtens o) k) ->
  exists ty z, for_loop s n (fun i st => let! st := mtouch cx i st in let! p := vget (mtens st) i in let! _ := assert_ dbg (match p with Some _ => true | None => false end) in let! q := vget (mtens o) i in mput cx i q st) st = Ok (mkFmpo (mtens o) ty z) /\ length ty = length (mtypes st).
Proof.
  intros dbg o. induction n as [|n IH]; intros s st HN HY HO HF HG HK.
  - exists (mtypes st), (mcenter st). cbn [for_loop]. split; [|reflexivity]. destruct st as [T ty z]. cbn [mtens mtypes mcenter] in *. do 2 f_equal. apply nth_error_ext. intros k. destruct (Nat.lt_ge_cases k s) as [Hk|Hk]; [auto|].
    rewrite (proj2 (nth_error_None T k)), (proj2 (nth_error_None (mtens o) k)) by lia. reflexivity.
  - cbn [for_loop]. rewrite mtouch_ok by lia. cbn [bind mtens]. destruct (vget_ok _ (mtens st) s ltac:(lia)) as [x [E1 E2]]. rewrite E1. cbn [bind].
    destruct x as [t|]. 2:{ exfalso. apply nth_error_In in E2. rewrite Forall_forall in HF. apply (HF _ E2). reflexivity. }
    rewrite asserted by reflexivity. cbn [bind]. destruct (vget_ok _ (mtens o) s ltac:(lia)) as [y [F1 F2]]. rewrite F1. cbn [bind]. rewrite mput_ok by (cbn [mtens]; lia). cbn [bind mtens mtypes mcenter].
    destruct (IH (S s) (mkFmpo (upd (mtens st) s y) (upd (mtypes st) s NONE) (-1)%Z)) as [ty [z [G1 G2]]]; cbn [mtens mtypes] in *; rewrite ?upd_length; auto; try lia.
    + apply Forall_forall. intros w Hw. apply In_nth_error in Hw. destruct Hw as [k Hk]. rewrite nth_error_upd in Hk. destruct (s =? k); [|apply nth_error_In in Hk; rewrite Forall_forall in HF; auto].
      destruct (Nat.ltb_spec s (length (mtens st))); [|lia]. injection Hk as <-. apply nth_error_In in F2. rewrite Forall_forall in HG. auto.
    + intros k Hk. rewrite nth_error_upd. destruct (Nat.eqb_spec s k) as [<-|]; [|apply HK; lia]. destruct (Nat.ltb_spec s (length (mtens st))); [symmetry; exact F2|lia].
    + exists ty, z. split; [exact G1|]. rewrite G2, upd_length. reflexivity.
Qed.
Lemma all_some : forall (ts : list c4), Forall (fun x => x <> None) (map Some ts).
Proof. intros ts. apply Forall_forall. intros x Hx. apply in_map_iff in Hx. destruct Hx as [t [<- _]]. discriminate. Qed.
Lemma flags_at_one : forall N ty, 2 <= N -> flags_at N 1 ty -> ty = flags_center1 N.
Proof.
  intros N ty HN [L F]. apply nth_error_ext. intros k. rewrite flags_nth. destruct (Nat.lt_ge_cases k N) as [Hk|Hk].
  - rewrite F by exact Hk. destruct k as [|[|k]]; try reflexivity. rewrite (proj2 (Nat.ltb_lt k (N - 2))) by lia. reflexivity.
  - rewrite (proj2 (nth_error_None ty k)) by lia. destruct k as [|[|k]]; try lia. destruct (Nat.ltb_spec k (N - 2)); [lia|reflexivity].
Qed.
(** a directory that holds the chain [gs] *)
Definition saved (d : mdir cx) (gs : list c4) : Prop := (forall i t, nth_error gs i = Some t -> mfile d i = Some t) /\ match cfile d with None => True | Some c => (-1 <= c < Z.of_nat (length gs))%Z end.
Definition guess (d : option (mdir cx)) (ts gs : list c4) : Prop := match d with None => gs = ts | Some d => saved d gs end.
Lemma load_starts : forall ds d ts gs st, oper_on cx ds ts -> oper_on cx ds gs -> 1 <= length ts -> holds4 cx st ts -> truthful4 st -> guess d ts gs -> exists b out, mpo_load cx d (mpo_new cx (length ts)) = Ok (b, out) /\ starts ts gs st out.
Proof.
  intros ds d ts gs st OT OG HN HS TS HG. assert (LG := len_same ds gs ts OG OT). destruct d as [d|].
  - destruct HG as [G1 G2]. rewrite (load_form cx d gs) by (auto; cbn [mpo_new mtens]; rewrite repeat_length; congruence). cbn [mpo_new mtypes mcenter].
    set (c := match cfile d with Some c => c | None => (-1)%Z end). assert (HC : (-1 <= c < Z.of_nat (length gs))%Z) by (unfold c; destruct (cfile d); [exact G2|lia]).
    destruct (Z.eq_dec c (-1)) as [E|NE].
    + rewrite E. eexists _, _. split; [reflexivity|]. left. split; [reflexivity|]. cbn [mtypes]. rewrite repeat_length. congruence.
    + destruct (set_center_form cx (mkFmpo (map Some gs) (repeat NONE (length ts)) c) (Z.to_nat c) (length gs)) as [ty [E F]]; cbn [mtens mtypes mcenter]; rewrite ?map_length, ?repeat_length; try lia.
      rewrite E. eexists _, _. split; [reflexivity|]. left. split; [reflexivity|]. cbn [mtypes]. destruct F as [F _]. exact F.
  - cbn [guess] in HG. eexists _, _. split; [reflexivity|]. right. cbn [mpo_new mtens mtypes]. rewrite !repeat_length. split; [reflexivity|]. split; [reflexivity|]. split; [destruct (length ts); [lia|left; reflexivity]|]. auto.
Qed.
Lemma square_of : forall qr svd svd6 terr Dmin Dmax dbg sweeps tol d st fl fr ts b out v ms, holds4 cx st ts -> 2 <= length ts -> mpo_load cx d (mpo_new cx (length ts)) = Ok (b, out) ->
  mpo_vproduct qr svd svd6 terr Dmin Dmax dbg sweeps tol st st out fl fr = Ok v -> holds4 cx (vout v) ms -> length ms = length ts -> mtypes (vout v) = flags_center1 (length ts) -> mcenter (vout v) = 1%Z ->
  mpo_square qr svd svd6 terr Dmin Dmax dbg sweeps tol d st fl fr = Ok (vout v, v).
Proof.
  intros qr svd svd6 terr Dmin Dmax dbg sweeps tol d st fl fr ts b out v ms [HT HY] HN HL HV [VT VY] LM EF EC. unfold mpo_square. rewrite HT, map_length, HL. cbn [bind snd]. rewrite HV. cbn [bind].
  destruct (copy_loop dbg (vout v) (length ts) 0 st) as [ty [z [E1 E2]]]; try (rewrite ?HT, ?VT, ?map_length; solve [auto using all_some|lia]).
  rewrite E1. cbn [bind mtens mtypes]. rewrite EC. rewrite asserted by reflexivity. cbn [bind].
  destruct (set_center_form cx (mkFmpo (mtens (vout v)) ty 1%Z) 1 (length ts)) as [ty' [F1 F2]]; try (cbn [mtens mtypes mcenter]; rewrite ?VT, ?map_length; solve [auto|lia]).
  rewrite F1. cbn [bind mtens mcenter]. rewrite (flags_at_one (length ts) ty' HN F2), <- EF. destruct (vout v) as [T tt c]. cbn [mtens mtypes mcenter] in *. rewrite EC. reflexivity.
Qed.
Lemma square_ok : forall qr svd svd6 terr Dmin Dmax dbg sweeps tol ds d st ts gs fl fr, qr4_exact qr -> svd4_exact svd -> good6 terr Dmin Dmax svd6 -> holds4 cx st ts -> oper_on cx ds ts -> oper_on cx ds gs -> truthful4 st ->
  guess d ts gs -> 3 <= length ts -> 1 <= sweeps -> hs ds (melem gs) (product ds (melem ts) (melem ts)) <> c0 ->
  exists st' v ms, mpo_square qr svd svd6 terr Dmin Dmax dbg sweeps tol d st fl fr = Ok (st', v) /\ variational ds terr Dmax (product ds (melem ts) (melem ts)) (melem gs) st' ms (vlog v).
Proof.
  intros qr svd svd6 terr Dmin Dmax dbg sweeps tol ds d st ts gs fl fr Q S V H1 H2 H3 H4 H5 H6 H7 H8. destruct (load_starts ds d ts gs st H2 H3 ltac:(lia) H1 H4 H5) as [b [out [L1 L2]]].
  destruct (vproduct_ok qr svd Q S svd6 terr Dmin Dmax ds ts ts gs st st out H2 H2 H3 (proj1 H1) (proj1 H1) L2 dbg sweeps tol fl fr V H6 H7 H8) as [v [ms [A1 [A2 _]]]].
  pose proof (len_same ds ms ts (vr_oper _ _ _ _ _ _ _ _ A2) H2) as LM. destruct (vr_flags _ _ _ _ _ _ _ _ A2) as [F1 F2]. rewrite LM in F1. exists (vout v), v, ms. split; [|exact A2].
  apply (square_of _ _ _ _ _ _ _ _ _ _ _ _ _ ts b out v ms); auto; try lia. apply A2.
Qed.
Lemma square_none : forall qr svd svd6 terr Dmin Dmax dbg sweeps tol ds d st ts gs fl fr, qr4_exact qr -> svd4_exact svd -> holds4 cx st ts -> oper_on cx ds ts -> oper_on cx ds gs -> truthful4 st ->
  guess d ts gs -> length ts = 2 \/ (2 <= length ts /\ sweeps = 0) ->
  exists st' v p r, mpo_square qr svd svd6 terr Dmin Dmax dbg sweeps tol d st fl fr = Ok (st', v) /\ holds4 cx st' (p :: r) /\ oper_on cx ds (p :: r) /\ same_oper ds (melem (p :: r)) (melem gs) /\ Forall right4 r /\
    mtypes st' = flags_center1 (length ts) /\ mcenter st' = 1%Z.
Proof.
  intros qr svd svd6 terr Dmin Dmax dbg sweeps tol ds d st ts gs fl fr Q S H1 H2 H3 H4 H5 H6. destruct (load_starts ds d ts gs st H2 H3 ltac:(lia) H1 H4 H5) as [b [out [L1 L2]]].
  destruct (vproduct_none qr svd Q S svd6 terr Dmin Dmax ds ts ts gs st st out H2 H2 H3 (proj1 H1) (proj1 H1) L2 dbg sweeps tol fl fr H6) as [v [p [r [A1 [A2 [A3 [A4 [A5 [A6 [A7 _]]]]]]]]]].
  exists (vout v), v, p, r. split; [|auto 10]. apply (square_of _ _ _ _ _ _ _ _ _ _ _ _ _ ts b out v (p :: r)); auto; try lia. apply (len_same ds); auto.
Qed.
Lemma square_normalize_ok : forall qr svd svd6 terr Dmin Dmax dbg sweeps tol ds d st ts gs fl fr st1 v ms, holds4 cx st ts -> 3 <= length ts ->
  mpo_square qr svd svd6 terr Dmin Dmax dbg sweeps tol d st fl fr = Ok (st1, v) -> variational ds terr Dmax (product ds (melem ts) (melem ts)) (melem gs) st1 ms (vlog v) ->
  exists st2 ts2, square_normalize qr svd svd6 terr Dmin Dmax dbg sweeps tol d st fl fr = Ok (cre (sqrt (hs2 ds (melem ms))), st2) /\ holds4 cx st2 ts2 /\ oper_on cx ds ts2 /\ mcenter st2 = 1%Z /\
    same_oper ds (melem ts2) (fun c c' => cmul (cre (/ sqrt (hs2 ds (melem ms)))) (melem ms c c')) /\ hs2 ds (melem ts2) = 1%R.
Proof.
  intros qr svd svd6 terr Dmin Dmax dbg sweeps tol ds d st ts gs fl fr st1 v ms H1 H2 H3 V. destruct (vr_best _ _ _ _ _ _ _ _ V) as [a [p [q [r [E _]]]]]. destruct (vr_flags _ _ _ _ _ _ _ _ V) as [F1 F2].
  pose proof (vr_holds _ _ _ _ _ _ _ _ V) as HH. pose proof (vr_oper _ _ _ _ _ _ _ _ V) as OO. pose proof (vr_true _ _ _ _ _ _ _ _ V) as TT. destruct (vr_proj _ _ _ _ _ _ _ _ V) as [_ NZ].
  assert (CA : left4 a /\ Forall right4 (q :: r)).
  { rewrite E in HH, F1. destruct HH as [HT _]. split.
    - destruct (TT 0) as [A _]. rewrite F1, HT in A. destruct (A eq_refl) as [t [B1 B2]]. injection B1 as <-. exact B2.
    - apply Forall_forall. intros t Ht. apply In_nth_error in Ht. destruct Ht as [i Hi]. destruct (TT (S (S i))) as [_ A]. rewrite F1, HT, flags_nth in A. assert (LI : i < length (q :: r)) by (apply nth_error_Some; congruence).
      cbn [length] in LI, A. destruct (Nat.ltb_spec i (S (S (S (length r))) - 2)); [|lia]. destruct (A eq_refl) as [t' [B1 B2]]. cbn [map nth_error] in B1. change (Some q :: map Some r) with (map Some (q :: r)) in B1. rewrite nth_error_map, Hi in B1. injection B1 as <-. exact B2. }
  destruct CA as [CA CB]. rewrite E in HH, OO, NZ. destruct (normalize_ok ds st1 [a] p (q :: r) HH OO (Forall_cons _ CA (Forall_nil _)) CB) as [st2 [ts2 [N1 [N2 [N3 [N4 [N5 N6]]]]]]].
  - unfold where_. rewrite F2. reflexivity.
  - lia.
  - exact NZ.
  - exists st2, ts2. unfold square_normalize. rewrite H3. cbn [bind fst snd]. rewrite N1. cbn [bind snd]. rewrite N4, F2. rewrite asserted by reflexivity. cbn [bind]. rewrite E. split; [reflexivity|]. split; [exact N2|]. split; [exact N3|]. split; [congruence|]. split; [exact N5|exact N6].
Qed.
