(** Concrete runs of ExpFiniteMPO. *)
From Coq Require Import List Arith Lia Bool ZArith Reals Lra Psatz Ring Factorial.
From Verif Require Import Base CoefOpAlg Numeric FiniteMps FmpsSpec FmpsFacts EffHam EffHamSpec EffHamFacts ChainSpec ChainFacts ChainOne MeasureFacts VmpsState Legs VmpsEnv FinMpo FinMpoSpec FinMpoFacts FinMpoExp Cx GVec DmrgStep
  TruncMps TruncMpsSpec TruncMpsMath TruncMpsFacts TruncMpsInst MpoCano MpoCanoSpec MpoMath MpoCanoFacts MpoCanoRun MpoTrunc MpoCanoInst MpoVar MpoSquare MpoVarSpec MpoVarEnv MpoVarStep MpoVarRun MpoVarTop MpoVarInst ExpMpo ExpMpoSpec ExpMath ExpRun ExpMpoInst.
Import ListNotations.
Local Open Scope nat_scope.

(** *** minus twice the identity of three sites, written with bond dimension two *)
Definition ii_a : c4 := mkTen4 1 2 2 2 (fun _ s s' _ => if s =? s' then cre (- 1) else c0).
Definition ii_m : c4 := mkTen4 2 2 2 2 (fun k s s' k' => if (s =? s') && (k =? k') then c1 else c0).
Definition ii_b : c4 := mkTen4 2 2 2 1 (fun _ s s' _ => if s =? s' then c1 else c0).
Definition ii : list c4 := [ii_a; ii_m; ii_b].
Definition ii_st : cmpo := mkFmpo (map Some ii) [NONE; NONE; NONE] (-1)%Z.
Lemma ii_diag : diag d222 (melem ii) (fun _ => cre (- 2)).
Proof.
  assert (E2 : cre (- 2) = cadd (cre (- 1)) (cre (- 1))) by (unfold cre, cadd; cbn [fst snd]; f_equal; lra).
  assert (EL : forall s t r s' t' r', melem ii [s; t; r] [s'; t'; r'] = if (s =? s') && (t =? t') && (r =? r') then cre (- 2) else c0).
  { intros. unfold melem, elem, ii. cbn [o4_mat m3 e4 ii_a ii_b ii_m FmpsSpec.sumn]. rewrite E2. change (FmpsSpec.delta cx c0 c1 0 0) with c1. cbn [Nat.eqb]. rewrite !andb_true_r, !andb_false_r. destruct (s =? s'), (t =? t'), (r =? r'); cbn [andb]; ring. }
  intros c c' Hc Hc'. assert (exists s t r, c = [s; t; r]) as [s [t [r ->]]] by (pose proof (cfg_len _ _ Hc) as L; destruct c as [|s [|t [|r [|]]]]; try discriminate; eauto).
  assert (exists s t r, c' = [s; t; r]) as [s' [t' [r' ->]]] by (pose proof (cfg_len _ _ Hc') as L; destruct c' as [|? [|? [|? [|]]]]; try discriminate; eauto).
  rewrite EL. destruct (list_eq_dec _ _ _) as [E|E].
  - injection E as -> -> ->. rewrite !Nat.eqb_refl. reflexivity.
  - destruct (Nat.eqb_spec s s') as [->|]; [|reflexivity]. destruct (Nat.eqb_spec t t') as [->|]; [|reflexivity]. destruct (Nat.eqb_spec r r') as [->|]; [|reflexivity]. contradiction.
Qed.

Lemma ii_ok : holds4 cx ii_st ii /\ oper_on cx d222 ii.
Proof. split; [split; reflexivity|repeat split]. Qed.
(** beta = 1/10: the first power is 1/5 of the identity; with bond dimension one the second is found by optimisation *)
Notation ii_x := (o_times (- (1 / 10)) (melem ii)).
Lemma ii_x_same : same_oper d222 ii_x (o_times (1 / 5) ident).
Proof. intros c c' Hc Hc'. unfold o_times. rewrite ii_diag, (ident_diag d222) by auto. destruct (list_eq_dec _ _ _); [|ring]. unfold cre, c1, cmul. cbn [fst snd]. f_equal; lra. Qed.
Lemma ident_part : part d222 ident = 8%R.
Proof.
  unfold part. rewrite (diag_hs _ _ _ _ _ nodup8 (ident_diag _) (ident_diag _)). change (configs d222) with [[0; 0; 0]; [0; 0; 1]; [0; 1; 0]; [0; 1; 1]; [1; 0; 0]; [1; 0; 1]; [1; 1; 0]; [1; 1; 1]]. cbn [csum_l fold_right].
  unfold c1, c0, cadd, cmul, cconj. cbn [fst snd]. ring.
Qed.
Lemma ii_run : forall sweeps tol fl fr, 1 <= sweeps -> exists h rho x out, exp_finite_mpo qr4 svd4 svd4_any svd6_one (1 / 10) 1 1 sweeps tol 0 0 true ii_st (1 / 10) 3 (fun _ => None) fl fr = Ok (onorm d222 (last_sum ident h), rho, x, out) /\
  orders d222 ii_x (fun _ => None) 1 ii_x ident h /\ normal_form d222 (last_sum ident h) rho /\ Forall2 (reported d222 (1 / 10) 0 1) out h /\ files d222 (fun _ => None) h (es_dirs x) /\
  exists a b G e, h = [a; b] /\ od_made a = First /\ od_made b = Varied G e.
Proof.
  intros sweeps tol fl fr HS. destruct ii_ok as [G1 G2].
  destruct (exp_mpo_ok qr4 svd4 svd4_any svd6_one (1 / 10) 1 1 sweeps tol 0 0 true d222 ii_st ii (1 / 10) 3 (fun _ => None) (fun _ => None) fl fr qr4_ok svd4_ok (fun a b Hb => svd4_any_good 0 a b ltac:(lra) Hb) (svd6_one_good _ _) (le_n 1) ltac:(cbn; lia) G1 G2 (or_introl eq_refl) (fun _ => I)) as [h [O1 [O2 [O3 [O4 O5]]]]].
  change (3 - 1) with 2 in *. assert (WI : width ii = 2) by reflexivity. rewrite WI in O2.
  assert (PX : part d222 ii_x = (8 / 5)%R) by (rewrite (part_same _ _ _ ii_x_same), part_times, ident_part; lra).
  assert (NI : hs2 d222 ident <> 0%R) by (apply part_nonzero; rewrite ident_part; lra).
  assert (PW1 : forall m T', power_of d222 ii_x (fun _ => None) 1 ii_x m T' -> m = First /\ same_oper d222 T' ii_x) by (intros m T' P; exact P).
  (* the first sum *)
  assert (S1 : forall T' es S', same_oper d222 T' ii_x -> sum_of d222 ident T' es S' -> (0 < part d222 S')%R).
  { intros T' es S' HT HC. assert (N := cut_nonzero _ _ _ _ HC). destruct HC as [_ [_ [HC _]]]. apply (part_proj d222 (o_plus ident T') (6 / 5)%R S'); auto; [lra|]. intros c c' Hc Hc'. unfold o_plus. rewrite HT, ii_x_same by auto. unfold o_times. transitivity (cmul (cadd c1 (cre (1 / 5))) (ident c c')); [ring|]. f_equal. unfold cre, c1, cadd. cbn [fst snd]. f_equal; lra. }
  (* the second power *)
  assert (PP : forall T, same_oper d222 T ii_x -> same_oper d222 (product d222 T ii_x) (o_times (1 / 25) ident)).
  { intros T HT c c' Hc Hc'. rewrite (diag_product d222 T ii_x _ _ nodup8 (same_diag _ _ _ _ HT (same_diag _ _ _ _ ii_x_same (times_diag _ _ _ _ (ident_diag _)))) (same_diag _ _ _ _ ii_x_same (times_diag _ _ _ _ (ident_diag _)))) by auto.
    unfold o_times. rewrite (ident_diag d222) by auto. destruct (list_eq_dec _ _ _); [|ring]. unfold cre, c1, cmul. cbn [fst snd]. f_equal; lra. }
  assert (NP : forall T, same_oper d222 T ii_x -> hs2 d222 (product d222 T ii_x) <> 0%R).
  { intros T HT. apply part_nonzero. rewrite (part_same _ _ _ (PP T HT)), part_times, ident_part. lra. }
  assert (PW2 : forall T m T', same_oper d222 T ii_x -> power_of d222 ii_x (fun _ => None) 2 T m T' -> (0 < part d222 T')%R).
  { intros T m T' HT [PG [M [PM PT]]]. rewrite (part_same _ _ _ PT), part_times. assert (0 < / INR 2)%R by (apply Rinv_0_lt_compat; cbn; lra). assert (0 < part d222 M)%R; [|nra].
    destruct m as [|e|G e|G]; [destruct PM| | |].
    - assert (N := cut_nonzero _ _ _ _ PM). destruct PM as [_ [_ [PM _]]]. apply (part_proj d222 _ (1 / 25) M ltac:(lra) (PP T HT) PM N).
    - destruct PM as [_ [PM [N _]]]. apply (part_proj d222 _ (1 / 25) M ltac:(lra) (PP T HT) PM N).
    - rewrite (part_same _ _ _ PM). pose proof (PG G [] (or_intror eq_refl)) as EG. cbn in EG. rewrite (part_same _ _ _ EG), (part_same _ _ _ HT), PX. lra. }
  assert (HD : degenerate d222 ii_x (fun _ => None) 2 h -> False).
  { intros [[L D]|Z]; [|exact (NI Z)]. destruct h as [|a [|b h]]; cbn [length] in L; [| |lia].
    - cbn [length Nat.add last_term last_sum map last] in D. destruct D as [[D _]|[[D _]|[m [T' [P Z]]]]]; try lia. destruct (PW1 m T' P) as [_ P2]. revert Z. apply part_nonzero. rewrite part_plus, (part_same _ _ _ P2), PX, ident_part. lra.
    - cbn [length Nat.add last_term last_sum map last] in D. cbn [orders Nat.add] in O1. destruct O1 as [P [Q _]]. destruct (PW1 _ _ P) as [_ P2]. destruct D as [[_ D]|[[_ [G [D1 D2]]]|[m [T' [R Z]]]]].
      + exact (NP _ P2 D).
      + rewrite (hs_same d222 _ _ _ _ (fun c c' Hc Hc' => eq_trans (D1 c c' Hc Hc') (eq_trans (P2 c c' Hc Hc') (ii_x_same c c' Hc Hc'))) (PP _ P2)), hs_mul_l, hs_mul_r in D2. apply (f_equal fst) in D2. unfold cmul, cre in D2. cbn [fst snd] in D2. fold (part d222 ident) in D2. rewrite ident_part in D2. cbn in D2. lra.
      + revert Z. apply part_nonzero. rewrite part_plus. pose proof (S1 _ _ _ P2 Q). pose proof (PW2 _ _ _ P2 R). lra. }
  destruct O5 as [[rho [x [out [E1 [E2 [E3 [E4 E5]]]]]]]|[[_ [_ [L [EV SG]]]]|D]]; [| |destruct (HD D)].
  - exists h, rho, x, out. split; [exact E1|]. split; [exact O1|]. split; [exact E2|]. split; [exact E4|]. split; [exact E5|].
    assert (length h = 2) as L by (clear -E3 O4; destruct E3 as [E3|[L1 [L2 [L3 _]]]]; [exact E3|]; assert (length h = 1) as L4 by lia; rewrite L4 in L3; discriminate L3).
    clear E1 E2 E3 E4 E5 HD O3 O4 S1 PP NP PW2. destruct h as [|a [|b [|d h]]]; [discriminate L|discriminate L| |discriminate L]. cbn [orders Nat.add] in O1. destruct O1 as [P1 [_ [P2 _]]]. destruct (PW1 _ _ P1) as [F _]. cbn [widths] in O2. destruct O2 as [W1 [_ [_ [W2 _]]]]. rewrite F in W1. rewrite W1 in W2.
    destruct (od_made b) as [|e|G e|G] eqn:EM; [|lia| |].
    + destruct P2 as [_ [M [[] _]]].
    + exists a, b, G, e. auto.
    + destruct W2 as [[W|W] _]; [discriminate W|lia].
  - exfalso. assert (length h = 2) as L2 by (clear -O4 L EV; destruct (Nat.eq_dec (length h) 1) as [E|E]; [rewrite E in EV; discriminate EV|lia]). destruct h as [|a [|b [|d h]]]; [discriminate L2|discriminate L2| |discriminate L2].
    cbn [orders Nat.add] in O1. destruct O1 as [P1 [_ [P2 _]]]. destruct (PW1 _ _ P1) as [_ P3]. unfold last_term in SG. cbn [map last] in SG. rewrite part_trace in SG by exact nodup8. pose proof (PW2 _ _ _ P3 P2). lra.
Qed.

(** *** two sites: the optimisation makes no step, the second power is half the first *)
Notation hf_x := (o_times (- (- 1)) (melem hf)).
Lemma hf_x_same : same_oper d22 hf_x (melem hf).
Proof. intros c c' _ _. unfold o_times. replace (- (- 1))%R with 1%R by ring. change (cre 1) with c1. ring. Qed.
Lemma cut_nil : forall ds P M, cut_from ds P [] M -> same_oper ds M P.
Proof. intros ds P M [_ [_ [H1 H2]]]. apply zero_dist. rewrite (proj_dist _ _ _ H1), H2. cbn [remains fold_right]. ring. Qed.
Lemma cut_zero : forall ds P es M, cut_from ds P es M -> lost_sum es = 0%R -> same_oper ds M P.
Proof.
  intros ds P es M H Z. pose proof (cut_dist _ _ _ _ H) as D. rewrite Z, Rmult_0_l in D. apply zero_dist. pose proof (hs2_pos ds (o_sub M P)). unfold hsdist2 in *. lra.
Qed.
Notation four := [[0; 0]; [0; 1]; [1; 0]; [1; 1]].
Lemma hf_zero : forall A, hs2 d22 A = 0%R -> forall c c', In c (configs d22) -> In c' (configs d22) -> A c c' = c0.
Proof. intros A Z. apply (zero_dist d22 A (fun _ _ => c0)). unfold hsdist2. rewrite <- Z. apply hs2_same. intros c c' _ _. unfold o_sub. ring. Qed.
Definition hf_sum : coper := o_plus (o_plus ident hf_x) (o_times (1 / 2) hf_x).
Lemma hf_off : hsdist2 d22 hf_sum (taylor d22 (- (- 1)) (melem hf) 3) = (1017 / 40000)%R.
Proof.
  assert (X := same_diag _ _ _ _ hf_x_same hf_diag).
  assert (D1 : diag d22 hf_sum (fun c => cadd (cadd c1 (hf_w c)) (cmul (cre (1 / 2)) (hf_w c)))) by (apply plus_diag; [apply plus_diag; [apply ident_diag|exact X]|apply times_diag; exact X]).
  assert (T1 : diag d22 (taylor_term d22 (- (- 1)) (melem hf) 1) hf_w) by (eapply same_diag; [apply tterm_1|exact X]).
  assert (T2 : diag d22 (taylor_term d22 (- (- 1)) (melem hf) 2) (fun c => cmul (cre (/ INR 2)) (cmul (hf_w c) (hf_w c)))) by (eapply same_diag; [apply tterm_S|]; apply times_diag, (diag_product _ _ _ _ _ nodup4 T1 X)).
  assert (D2 : diag d22 (taylor d22 (- (- 1)) (melem hf) 3) (fun c => cadd (cadd c1 (hf_w c)) (cmul (cre (/ INR 2)) (cmul (hf_w c) (hf_w c))))).
  { eapply same_diag; [apply taylor_S|]. apply plus_diag; [|exact T2]. eapply same_diag; [apply taylor_S|]. apply plus_diag; [|exact T1]. eapply same_diag; [apply taylor_0|apply ident_diag]. }
  assert (D3 : diag d22 (o_sub hf_sum (taylor d22 (- (- 1)) (melem hf) 3)) (fun c => csub (cadd (cadd c1 (hf_w c)) (cmul (cre (1 / 2)) (hf_w c))) (cadd (cadd c1 (hf_w c)) (cmul (cre (/ INR 2)) (cmul (hf_w c) (hf_w c)))))).
  { intros c c' Hc Hc'. unfold o_sub. rewrite D1, D2 by auto. destruct (list_eq_dec _ _ _); [reflexivity|ring]. }
  unfold hsdist2, hs2. rewrite (diag_hs _ _ _ _ _ nodup4 D3 D3). change (configs d22) with four. change (INR 2) with 2%R. cbn [csum_l fold_right hf_w]. unfold cre, c1, c0, csub, cadd, cmul, cconj. cbn [fst snd]. field.
Qed.
Lemma hf_run : forall qr svd svdt svd6 terr Dmin sweeps tol ttol eps dbg fl fr, qr4_exact qr -> svd4_exact svd -> (forall a b, 1 <= b -> good4 eps a b svdt) -> good6 terr Dmin 3 svd6 ->
  exists S rho x out o cut d gs, exp_finite_mpo qr svd svdt svd6 terr Dmin 3 sweeps tol ttol eps dbg hf_st (- 1) 3 (fun _ => None) fl fr = Ok (onorm d22 S, rho, x, out) /\ normal_form d22 S rho /\
    es_dirs x 2 = Some d /\ dir_chain d22 d gs /\ same_oper d22 (melem gs) (o_times (1 / 2) hf_x) /\
    nth_error out 1 = Some o /\ match ol_rho o with None => cut = [] | Some l => cut = map fst l end /\ cut_from d22 hf_sum cut S /\ (lost_sum cut = 0%R -> hsdist2 d22 S (taylor d22 (- (- 1)) (melem hf) 3) = (1017 / 40000)%R).
Proof.
  intros qr svd svdt svd6 terr Dmin sweeps tol ttol eps dbg fl fr QR SV ST S6. destruct hf_ok as [G1 [G2 [_ [G4 G5]]]].
  destruct (exp_mpo_ok qr svd svdt svd6 terr Dmin 3 sweeps tol ttol eps dbg d22 hf_st hf (- 1) 3 (fun _ => None) (fun _ => None) fl fr QR SV ST S6 ltac:(lia) ltac:(cbn; lia) G1 G2 (or_introl eq_refl) (fun _ => I)) as [h [O1 [O2 [O3 [O4 O5]]]]].
  change (3 - 1) with 2 in *. assert (WI : width hf = 2) by reflexivity. rewrite WI in O2. clear O3. assert (XD := same_diag _ _ _ _ hf_x_same hf_diag).
  assert (PW1 : forall m T', power_of d22 hf_x (fun _ => None) 1 hf_x m T' -> m = First /\ same_oper d22 T' hf_x) by (intros m T' P; exact P).
  assert (NI : hs2 d22 ident <> 0%R) by (intros Z; pose proof (hf_zero _ Z [0; 0] [0; 0] ltac:(cbn; auto) ltac:(cbn; auto)) as E; apply (f_equal fst) in E; cbn in E; lra).
  assert (I01 : In [0; 1] (configs d22)) by (cbn; auto). assert (I00 : In [0; 0] (configs d22)) by (cbn; auto). assert (I11 : In [1; 1] (configs d22)) by (cbn; auto).
  assert (S1 : forall a, od_made a = First -> same_oper d22 (od_term a) hf_x -> sum_of d22 ident (od_term a) (od_cut a) (od_sum a) -> widths (still d22 sweeps) 2 3 2 1 [a] -> same_oper d22 (od_sum a) (o_plus ident hf_x)).
  { intros a E1 E2 E3 [E4 [E5 _]]. rewrite E1 in E4. assert (od_cut a = []) as C. { destruct (od_cut a); [reflexivity|]. exfalso. assert (3 < 1 + od_bond a) by (apply E5; discriminate). lia. }
    unfold sum_of in E3. rewrite C in E3. intros c c' Hc Hc'. rewrite (cut_nil _ _ _ E3) by auto. unfold o_plus. rewrite E2 by auto. reflexivity. }
  assert (PP : forall T, same_oper d22 T hf_x -> diag d22 (product d22 T hf_x) (fun c => cmul (hf_w c) (hf_w c))) by (intros T HT; apply diag_product; [exact nodup4|exact (same_diag _ _ _ _ HT XD)|exact XD]).
  assert (HD : degenerate d22 hf_x (fun _ => None) 2 h -> False).
  { intros [[L D]|Z]; [|exact (NI Z)]. clear O5 O4. destruct h as [|a [|b h]]; cbn [length] in L; [| |lia].
    - cbn [length Nat.add last_term last_sum map last] in D. destruct D as [[D _]|[[D _]|[m [T' [P Z]]]]]; [lia|lia|]. destruct (PW1 m T' P) as [_ P2]. pose proof (hf_zero _ Z [0; 1] [0; 1] I01 I01) as E. unfold o_plus in E. rewrite P2, XD in E by auto. apply (f_equal fst) in E. cbn in E. lra.
    - cbn [length Nat.add last_term last_sum map last] in D. cbn [orders Nat.add] in O1. destruct O1 as [P [Q _]]. destruct (PW1 _ _ P) as [F P2]. destruct D as [[_ D]|[[_ [G [D1 D2]]]|[m [T' [R Z]]]]].
      + unfold hs2 in D. rewrite (diag_hs _ _ _ _ _ nodup4 (PP _ P2) (PP _ P2)) in D. change (configs d22) with four in D. cbn [csum_l fold_right hf_w] in D. unfold cre, c0, cadd, cmul, cconj in D. cbn [fst snd] in D. lra.
      + cbn in D1. rewrite (diag_hs _ _ _ _ _ nodup4 (same_diag _ _ _ _ D1 (same_diag _ _ _ _ P2 XD)) (PP _ P2)) in D2. change (configs d22) with four in D2. cbn [csum_l fold_right hf_w] in D2. apply (f_equal fst) in D2. unfold cre, c0, cadd, cmul, cconj in D2. cbn [fst snd] in D2. lra.
      + pose proof (S1 a F P2 Q O2) as SS. destruct R as [PG [M [PM PT]]].
        assert (V : forall c, In c (configs d22) -> M c c = copp (cmul (cre 2) (cadd c1 (hf_w c)))).
        { intros c Hc. pose proof (hf_zero _ Z c c Hc Hc) as E. unfold o_plus in E. rewrite SS, PT in E by auto. unfold o_plus, o_times in E. fold (o_times (- (- 1)) (melem hf)) in E. change (cmul (cre (- (- 1))) (melem hf c c)) with (hf_x c c) in E. rewrite XD, (ident_diag d22) in E by auto. destruct (list_eq_dec _ _ _); [|congruence].
          change (INR 2) with 2%R in E. transitivity (cmul (cre 2) (cmul (cre (/ 2)) (M c c))); [transitivity (cmul (cre (2 * / 2)) (M c c)); [rewrite Rinv_r by lra; change (cre 1) with c1; ring|rewrite cre_mul; ring]|]. replace (cmul (cre (/ 2)) (M c c)) with (csub (cadd (cadd c1 (hf_w c)) (cmul (cre (/ 2)) (M c c))) (cadd c1 (hf_w c))) by ring. rewrite E. ring. }
        assert (NEG : hs d22 M (product d22 (od_term a) hf_x) = hs d22 M M -> False).
        { intros E. apply (f_equal fst) in E. fold (hs2 d22 M) in E. pose proof (hs2_pos d22 M) as P0. rewrite <- E in P0. clear E. unfold hs in P0. rewrite (csum_ext _ _ _ (fun c => cmul (cconj (M c c)) (cmul (hf_w c) (hf_w c)))) in P0.
          - change (configs d22) with four in P0. cbn [csum_l fold_right] in P0. rewrite !V in P0 by (cbn; auto). cbn [hf_w] in P0. unfold cre, c1, c0, cadd, cmul, cconj, copp in P0. cbn [fst snd] in P0. lra.
          - intros c Hc. rewrite (csum_one_in _ _ c _ nodup4 Hc).
            + rewrite (PP _ P2) by auto. destruct (list_eq_dec _ _ _); [reflexivity|congruence].
            + intros c' Hc' NE. rewrite (PP _ P2) by auto. destruct (list_eq_dec _ _ _); [congruence|ring]. }
        destruct m as [|e|G e|G]; [exact PM| | |].
        * destruct PM as [_ [_ [PM _]]]. exact (NEG PM).
        * destruct PM as [_ [PM _]]. exact (NEG PM).
        * pose proof (PG G [] (or_intror eq_refl)) as EG. cbn in EG. pose proof (V [0; 1] I01) as E. rewrite PM, EG, P2, XD in E by auto. apply (f_equal fst) in E. cbn in E. lra. }
  (* the second order *)
  assert (O6 : forall a b, h = [a; b] -> same_oper d22 (od_term b) (o_times (1 / 2) hf_x) /\ cut_from d22 hf_sum (od_cut b) (od_sum b)).
  { intros a b ->. clear O5 O4 HD. cbn [orders Nat.add] in O1. destruct O1 as [P1 [Q1 [P2 [Q2 _]]]]. destruct (PW1 _ _ P1) as [F P3]. destruct O2 as [W1 [W2 [W3 W4]]]. assert (SS := S1 a F P3 Q1 (conj W1 (conj W2 (conj W3 I)))). rewrite F in W1. cbn [widths] in W4. destruct W4 as [W4 _]. rewrite W1 in W4.
    assert (TB : same_oper d22 (od_term b) (o_times (1 / 2) hf_x)).
    { destruct P2 as [PG [M [PM PT]]]. destruct (od_made b) as [|e|G e|G]; [destruct PM|lia|destruct W4 as [W4 _]; exfalso; apply W4; left; reflexivity|].
      pose proof (PG G [] (or_intror eq_refl)) as EG. cbn in EG. intros c c' Hc Hc'. rewrite PT by auto. unfold o_times at 1. rewrite PM, EG, P3 by auto. unfold o_times at 2. change (INR 2) with 2%R. replace (1 / 2)%R with (/ 2)%R by lra. reflexivity. }
    split; [exact TB|]. apply (cut_same d22 (o_plus (od_sum a) (od_term b))); [|exact Q2]. intros c c' Hc Hc'. unfold o_plus, hf_sum, o_plus. rewrite SS, TB by auto. reflexivity. }
  destruct O5 as [[rho [x [out [E1 [E2 [E3 [E4 E5]]]]]]]|[[_ [_ [L [EV SG]]]]|D]]; [| |destruct (HD D)]; clear HD.
  - assert (length h = 2) as L by (clear -E3 O4; destruct E3 as [E3|[L1 [L2 [L3 _]]]]; [exact E3|]; assert (length h = 1) as L4 by lia; rewrite L4 in L3; discriminate L3).
    destruct h as [|a [|b [|d h]]]; [discriminate L|discriminate L| |discriminate L]. destruct (O6 a b eq_refl) as [TB CB]. cbn [last_sum map last] in *.
    destruct E5 as [E5 _]. destruct (E5 1 b eq_refl) as [d [gs [F1 [F2 [F3 _]]]]]. inversion E4 as [|o1 ? l1 ? R1 R2]; subst. inversion R2 as [|o2 ? l2 ? R3 R4]; subst. inversion R4; subst.
    exists (od_sum b), rho, x, [o1; o2], o2, (od_cut b), d, gs. split; [exact E1|]. split; [exact E2|]. split; [exact F1|]. split; [exact F2|]. split; [rewrite <- F3; exact TB|]. split; [reflexivity|]. split; [destruct R3 as [_ [R3 _]]; destruct (ol_rho o2) as [l|]; [exact (proj1 R3)|exact R3]|]. split; [exact CB|].
    intros Z. rewrite <- hf_off. apply dist_same; [exact (cut_zero _ _ _ _ CB Z)|apply same_refl].
  - exfalso. assert (length h = 2) as L2 by (clear -O4 L EV; destruct (Nat.eq_dec (length h) 1) as [E|E]; [rewrite E in EV; discriminate EV|lia]). destruct h as [|a [|b [|d h]]]; [discriminate L2|discriminate L2| |discriminate L2].
    destruct (O6 a b eq_refl) as [TB _]. unfold last_term in SG. cbn [map last] in SG. rewrite part_trace, (part_same _ _ _ TB), part_times in SG by exact nodup4. unfold part in SG. rewrite (diag_hs _ _ _ _ _ nodup4 XD (ident_diag _)) in SG. change (configs d22) with four in SG. cbn [csum_l fold_right hf_w] in SG. unfold cre, c1, c0, cadd, cmul, cconj in SG. cbn [fst snd] in SG. lra.
Qed.
Lemma hf_wrong_exp : exists st ts, holds4 cx st ts /\ oper_on cx d22 ts /\ hs2 d22 (product d22 (melem ts) (melem ts)) <> hs2 d22 (melem ts) /\
  forall qr svd svdt svd6 terr Dmin sweeps tol ttol eps dbg fl fr, qr4_exact qr -> svd4_exact svd -> (forall a b, 1 <= b -> good4 eps a b svdt) -> good6 terr Dmin 3 svd6 ->
  exists S rho x out o cut d gs, exp_finite_mpo qr svd svdt svd6 terr Dmin 3 sweeps tol ttol eps dbg st (- 1) 3 (fun _ => None) fl fr = Ok (onorm d22 S, rho, x, out) /\ normal_form d22 S rho /\
    es_dirs x 2 = Some d /\ dir_chain d22 d gs /\ same_oper d22 (melem gs) (o_times (1 / 2) (melem ts)) /\
    nth_error out 1 = Some o /\ match ol_rho o with None => cut = [] | Some l => cut = map fst l end /\ cut_from d22 (o_plus (o_plus ident (melem ts)) (o_times (1 / 2) (melem ts))) cut S /\
    (lost_sum cut = 0%R -> hsdist2 d22 S (taylor d22 1 (melem ts) 3) = (1017 / 40000)%R).
Proof.
  exists hf_st, hf. destruct hf_ok as [G1 [G2 [_ [G4 G5]]]]. split; [exact G1|]. split; [exact G2|]. split; [rewrite G4, G5; lra|].
  intros qr svd svdt svd6 terr Dmin sweeps tol ttol eps dbg fl fr QR SV ST S6. destruct (hf_run qr svd svdt svd6 terr Dmin sweeps tol ttol eps dbg fl fr QR SV ST S6) as [S [rho [x [out [o [cut [d [gs [A1 [A2 [A3 [A4 [A5 [A6 [A7 [A8 A9]]]]]]]]]]]]]]]].
  exists S, rho, x, out, o, cut, d, gs. split; [exact A1|]. split; [exact A2|]. split; [exact A3|]. split; [exact A4|]. split; [intros c c' Hc Hc'; rewrite A5 by auto; unfold o_times at 1 3; rewrite hf_x_same by auto; reflexivity|]. split; [exact A6|]. split; [exact A7|].
  split; [|replace (- (- 1))%R with 1%R in A9 by ring; exact A9]. apply (cut_same d22 hf_sum); [|exact A8]. intros c c' Hc Hc'. unfold hf_sum, o_plus, o_times at 2 4. rewrite hf_x_same by auto. reflexivity.
Qed.
(** without errors the bound is zero *)
Lemma series_exact : forall ds a H stored h, orders ds (o_times a H) stored 1 (o_times a H) ident h ->
  Forall (fun o => lost_sum (od_cut o) = 0%R /\ match od_made o with First => True | Exact e => lost_sum e = 0%R | _ => False end) h ->
  same_oper ds (last_sum ident h) (taylor ds a H (1 + length h)).
Proof.
  intros ds a H stored h HO HF. pose proof (series_bound ds a H stored h HO) as B. unfold gen in B.
  assert (Z : forall h n T S, Forall (fun o => lost_sum (od_cut o) = 0%R /\ match od_made o with First => True | Exact e => lost_sum e = 0%R | _ => False end) h -> bound ds (o_times a H) n T S 0 0 h = 0%R).
  { clear. induction h as [|o h IH]; intros n T S HF; [reflexivity|]. inversion HF as [|? ? [C M] HF']; subst. cbn [bound]. rewrite C, !Rmult_0_l, sqrt_0.
    assert (A : allowed ds (product ds T (o_times a H)) (od_made o) = 0%R) by (destruct (od_made o) as [|e| |]; cbn [allowed]; [reflexivity|rewrite M; ring|destruct M|destruct M]). rewrite A, sqrt_0.
    replace (if n =? 1 then 0%R else ((0 + 0) / INR n)%R) with 0%R by (destruct (n =? 1); [reflexivity|unfold Rdiv; ring]). replace (0 + 0 + 0)%R with 0%R by ring. apply IH. exact HF'. }
  rewrite (Z h _ _ _ HF) in B. apply zero_dist. pose proof (onorm_sq ds (o_sub (last_sum ident h) (taylor ds a H (1 + length h)))) as Q. pose proof (odist_pos ds (last_sum ident h) (taylor ds a H (1 + length h))) as P. unfold odist in *. unfold hsdist2. rewrite <- Q. nra.
Qed.
