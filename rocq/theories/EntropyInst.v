(** x |00> + y |11> with its singular value decomposition. *)
From Coq Require Import List Arith Lia Bool ZArith Reals Lra Psatz Ring.
From Verif Require Import Base FiniteMps FmpsSpec FmpsFacts FmpsTruth EffHam EffHamSpec EffHamFacts ChainSpec ChainFacts ChainOne FinMpoFacts MeasureFacts Cx GVec DmrgStep TruncMps TruncMpsSpec TruncMpsMath TruncMpsFacts TruncMpsRun TruncMpsInst EntropyMps EntropySpec EntropyMath EntropyChain EntropyRun.
Import ListNotations.
Local Open Scope nat_scope.

Section Pair.
Variables (x y : real).
Hypothesis X0 : (0 <= x)%R.
Hypothesis Y0 : (0 <= y)%R.
Hypothesis N1 : (x * x + y * y = 1)%R.
Definition pair_a : cten := mkTen 1 2 2 (fun _ s k => if s =? k then (if s =? 0 then cre x else cre y) else c0).
Definition pair : list cten := [pair_a; ghz_b].
Definition pair_st : fmps cx := mkFmps (map Some pair) [NONE; NONE] (-1)%Z.
(** singular value decomposition of a 2-leg matrix with orthogonal columns of norms x and y *)
Definition pair_svd (a : cten) : cmat * cten * list cx :=
  (mkMat2 (d0 a) 2 (fun i k => el a i k 0), mkTen 2 2 1 (fun k s _ => if k =? s then c1 else c0), [cre x; cre y]).

Lemma pair_amp : forall s t, s < 2 -> t < 2 -> amplitude pair [s; t] = if s =? t then (if s =? 0 then cre x else cre y) else c0.
Proof.
  intros s t Hs Ht. unfold amplitude, pair. cbn [mps_mat pair_a ghz_b d2 el FmpsSpec.sumn].
  destruct s as [|[|s]]; [| |lia]; destruct t as [|[|t]]; try lia; cbn [Nat.eqb]; change (FmpsSpec.delta cx c0 c1 0 0) with c1; ring.
Qed.
Lemma pair_norm : norm pair = 1%R.
Proof.
  unfold norm. replace (inner pair pair) with c1; [cbn; apply sqrt_1|]. unfold inner. change (basis pair) with [[0; 0]; [0; 1]; [1; 0]; [1; 1]]. cbn [total fold_right].
  rewrite !pair_amp by lia. cbn [Nat.eqb]. unfold c0, c1, cre, cadd, cmul, cconj. cbn [fst snd]. f_equal; lra.
Qed.
Lemma pair_ok : holdsc pair_st pair /\ linked cx 1 pair 1 /\ truthful cx c0 c1 cadd cmul cconj pair_st /\ pair <> [] /\ norm pair <> 0%R.
Proof.
  split; [split; reflexivity|]. split; [cbn; auto|]. split; [|split; [discriminate|rewrite pair_norm; lra]].
  intros [|[|i]]; split; cbn; intros H; try discriminate; destruct i; discriminate.
Qed.

(** the only tensor handed to the SVD *)
Lemma pair_start : forall dbg, exists st1 u a, ee_start cqr pair_svd dbg pair_st = Ok st1 /\ holdsc st1 [u; a] /\ linked cx 1 [u; a] 1 /\ d1 u = 2 /\ d1 a = 2 /\ lcan u /\
  (forall s t, s < 2 -> t < 2 -> mm [u; a] [s; t] 0 0 = if s =? t then (if s =? 0 then cre x else cre y) else c0) /\ schmidt_svd a (pair_svd a).
Proof.
  intros dbg. destruct pair_ok as [P1 [P2 [P3 [P4 P5]]]].
  destruct (proj2 (start_ok cqr pair_svd cqr_exact dbg pair_st pair P1 P2 P3 P4) P5) as [st1 [l [a [A1 [A2 [A3 [A4 [A5 [A6 _]]]]]]]]].
  assert (L : length l = 1). { pose proof (f_equal (@length nat) A5) as E. rewrite !map_length, app_length in E. cbn in E. lia. }
  destruct l as [|u [|]]; try discriminate. cbn [app] in *. inversion A4 as [|? ? LU _]; subst. cbn [map pair pair_a ghz_b d1] in A5. injection A5 as D1 D2.
  assert (AM : forall s t, s < 2 -> t < 2 -> mm [u; a] [s; t] 0 0 = if s =? t then (if s =? 0 then cre x else cre y) else c0).
  { intros s t Hs Ht. rewrite A6, pair_norm, Rinv_1, cre_1; [rewrite <- (pair_amp s t Hs Ht); unfold amplitude; ring|].
    change (In [s; t] [[0; 0]; [0; 1]; [1; 0]; [1; 1]]). destruct s as [|[|s]]; [| |lia]; destruct t as [|[|t]]; try lia; cbn; auto. }
  exists st1, u, a. split; [exact A1|]. split; [exact A2|]. split; [exact A3|]. split; [exact D1|]. split; [exact D2|]. split; [exact LU|]. split; [exact AM|].
  cbn [linked] in A3. destruct A3 as [K1 [K2 K3]]. unfold pair_svd. constructor.
  - cbn. auto.
  - intros k k' Hk Hk'. cbn [d0 d1 d2 el FmpsSpec.sumn] in *. unfold FmpsSpec.delta. destruct k as [|[|k]]; [| |lia]; destruct k' as [|[|k']]; try lia; cbn [Nat.eqb]; rewrite ?cconj0, ?cconj1; ring.
  - constructor; [split; [exact X0|reflexivity]|constructor; [split; [exact Y0|reflexivity]|constructor]].
  - cbn [n0 me length]. intros k k' Hk Hk'.
    assert (LB : left_basis cx c0 c1 cadd cmul cconj [u] (d0 a)).
    { apply (left_basis_ok cx c0 c1 cadd cmul csub copp cx_ring cconj cconj0 cconj1 cconj_add cconj_mul); [cbn; auto|constructor; auto]. }
    assert (AM2 : forall s t, s < 2 -> t < 2 -> lsum (seq 0 (d0 a)) (fun z => cmul (mm [u] [s] 0 z) (el a z t 0)) = if s =? t then (if s =? 0 then cre x else cre y) else c0).
    { intros s t Hs Ht. rewrite <- (AM s t Hs Ht). change [u; a] with ([u] ++ [a]). change [s; t] with ([s] ++ [t]).
      rewrite (mps_mat_app [u] [a] [s] [t] 1 (d0 a) 0 0) by (cbn; auto; lia). apply lsum_ext. intros z _. rewrite (mps_one a t z 0) by (rewrite K3; lia). reflexivity. }
    rewrite sumn_lsum.
    transitivity (lsum (seq 0 2) (fun s => cmul (cconj (lsum (seq 0 (d0 a)) (fun z => cmul (mm [u] [s] 0 z) (el a z k 0)))) (lsum (seq 0 (d0 a)) (fun z => cmul (mm [u] [s] 0 z) (el a z k' 0))))).
    + symmetry. transitivity (lsum (seq 0 2) (fun s => lsum (seq 0 (d0 a)) (fun z => lsum (seq 0 (d0 a)) (fun w => cmul (cmul (cconj (el a z k 0)) (el a w k' 0)) (cmul (cconj (mm [u] [s] 0 z)) (mm [u] [s] 0 w)))))).
      { apply lsum_ext. intros s _. rewrite lsum_conj, lsum_mul_r. apply lsum_ext. intros z _. rewrite lsum_mul_l. apply lsum_ext. intros w _. rewrite cconj_mul. ring. }
      etransitivity; [apply lsum_swap|].
      etransitivity; [|apply (dbl cx c0 c1 cadd cmul csub copp cx_ring (d0 a) (fun z => cconj (el a z k 0)) (fun w => el a w k' 0) (fun z w => lsum (configs (dims [u])) (fun c => cmul (cconj (mm [u] c 0 z)) (mm [u] c 0 w))) LB)].
      apply lsum_ext. intros z _. etransitivity; [apply lsum_swap|]. apply lsum_ext. intros w _. rewrite <- lsum_mul_l. f_equal. cbn [map]. rewrite D1, configs_one. reflexivity.
    + change (seq 0 2) with [0; 1]. change (cadd (cmul (cconj (lsum (seq 0 (d0 a)) (fun z => cmul (mm [u] [0] 0 z) (el a z k 0)))) (lsum (seq 0 (d0 a)) (fun z => cmul (mm [u] [0] 0 z) (el a z k' 0))))
        (cadd (cmul (cconj (lsum (seq 0 (d0 a)) (fun z => cmul (mm [u] [1] 0 z) (el a z k 0)))) (lsum (seq 0 (d0 a)) (fun z => cmul (mm [u] [1] 0 z) (el a z k' 0)))) c0) =
        if k =? k' then cmul (nth k [cre x; cre y] c0) (nth k [cre x; cre y] c0) else c0).
      rewrite !AM2 by lia. destruct k as [|[|k]]; [| |lia]; destruct k' as [|[|k']]; try lia; cbn [Nat.eqb nth]; rewrite ?cconj0, ?cconj_cre; ring.
  - cbn [n1 me el FmpsSpec.sumn]. intros i t w Hi Ht Hw. assert (w = 0) as -> by lia. rewrite D2 in Ht.
    destruct t as [|[|t]]; [| |lia]; cbn [Nat.eqb]; ring.
Qed.
Lemma pair_calls : forall dbg n a, svd_call cqr pair_svd dbg n pair_st a -> schmidt_svd a (pair_svd a).
Proof.
  intros dbg n a [st1 [j [st2 [es [H1 [H2 [H3 H4]]]]]]]. cbn in H2. assert (j = 0) as -> by lia. cbn [firstn for_each] in H3. injection H3 as <- <-.
  destruct (pair_start dbg) as [st1' [u [a' [E1 [E2 [_ [_ [_ [_ [_ E3]]]]]]]]]]. rewrite E1 in H1. injection H1 as <-. rewrite (proj1 E2) in H4. cbn in H4. injection H4 as <-. exact E3.
Qed.
Lemma pair_run : forall dbg n, exists st', get_ee cqr pair_svd dbg n pair_st = Ok (st', [bond_entropy n [cre x; cre y]]).
Proof.
  intros dbg n. destruct (pair_start dbg) as [st1 [u [a [E1 [E2 [E3 [_ [_ [_ [_ E4]]]]]]]]]].
  unfold get_ee. cbn [length tens pair_st map pair Nat.eqb Nat.sub]. rewrite E1. cbn [bind seq rev app for_each].
  destruct (svd_step cqr pair_svd dbg st1 [] u a [] _ _ _ E2 E3 eq_refl E4) as [p' [E5 _]]. cbn [length] in E5.
  unfold ee_site. cbn [fst snd]. rewrite E5. cbn [bind]. eexists. reflexivity.
Qed.
(** the spectral decomposition of its reduced density matrix *)
Lemma pair_spectral : spectral (fun c => cmul (cre (/ norm pair)) (amplitude pair c)) (map d1 pair) 1 [(x * x)%R; (y * y)%R] (fun j c => if nth 0 c 0 =? j then c1 else c0).
Proof.
  assert (LS : left_states (map d1 pair) 1 = [[0]; [1]]) by reflexivity. assert (RS : right_states (map d1 pair) 1 = [[0]; [1]]) by reflexivity.
  constructor.
  - constructor; [nra|constructor; [nra|constructor]].
  - rewrite LS. cbn [length]. intros j k Hj Hk. destruct j as [|[|j]]; [| |lia]; destruct k as [|[|k]]; try lia; cbn [tot fold_right nth Nat.eqb]; rewrite ?cconj0, ?cconj1; ring.
  - rewrite LS. intros c c' Hc Hc'. unfold rho. rewrite RS. cbn [tot fold_right length seq nth]. rewrite pair_norm, Rinv_1, cre_1.
    destruct Hc as [<-|[<-|[]]]; destruct Hc' as [<-|[<-|[]]]; cbn [app nth Nat.eqb]; rewrite !pair_amp by lia; cbn [Nat.eqb]; rewrite ?cre_mul, ?cconj_mul, ?cconj_cre, ?cconj0, ?cconj1; try (rewrite <- cre_mul); try ring;
    unfold c0, c1, cre, cadd, cmul, cconj; cbn [fst snd]; f_equal; ring.
Qed.
Lemma pair_one : (x <> 0)%R -> (y <> 0)%R -> bond_entropy 1 [cre x; cre y] = Some (- (x * x) * ln (x * x) + - (y * y) * ln (y * y))%R.
Proof.
  intros HX HY. rewrite one_value. change (map prob [cre x; cre y]) with [(x * x)%R; (y * y)%R]. unfold rank. cbn [filter]. destruct (Req_EM_T (x * x) 0) as [E|_]; [nra|]. destruct (Req_EM_T (y * y) 0) as [E|_]; [nra|].
  change (length [(x * x)%R; (y * y)%R] <? length [cre x; cre y]) with false. cbv iota. apply f_equal. cbn [von_neumann fold_right]. destruct (Req_EM_T (x * x) 0) as [E|_]; [nra|]. destruct (Req_EM_T (y * y) 0) as [E|_]; [nra|]. ring.
Qed.
Lemma pair_nan : y = 0%R -> bond_entropy 1 [cre x; cre y] = None.
Proof.
  intros ->. rewrite one_value. change (map prob [cre x; cre 0]) with [(x * x)%R; (0 * 0)%R]. unfold rank. cbn [filter]. destruct (Req_EM_T (0 * 0) 0) as [_|N]; [|exfalso; apply N; ring].
  destruct (Req_EM_T (x * x) 0); reflexivity.
Qed.
End Pair.
