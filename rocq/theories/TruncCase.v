(** Three spins in |0> (|00> + |11>), an eigenstate of - X_1 X_2: a sweep of two-site VMPS that keeps one singular value per bond. *)
From Coq Require Import List Arith Bool Lia QArith Qreals Reals Lra Ring_theory FunctionalExtensionality.
From Verif Require Import Base Disk SweepSpec TwoSite TwoSiteFacts Tdvp TdvpSpec TdvpRun FiniteMps FmpsSpec FmpsFacts EffHam EffHamSpec EffHamFacts ChainSpec ChainFacts Legs VmpsLocal VmpsSpec VmpsEnv VmpsHeff ChainOne Lanczos LanczosSpec Krylov KrylovSpec Cx KrylovInst GVec GVecFacts GVecEigen DmrgStep ChainPair ChainUpdate DmrgVarSpec DmrgVar DmrgVarRun DmrgVarInst ConserveSpec ConserveFacts ConserveRun ConserveVmps ConserveInst CorrSpec CorrRun CorrInst EigenSpec EigenFacts EigenRun EigenInst TruncUpdate TruncSpec TruncFacts TruncRun TruncInst.
Import ListNotations.
Local Open Scope nat_scope.
Notation e4 := (fun v : cvec => (fun a s1 s2 b => v [a; s1; s2; b]) : nat -> nat -> nat -> nat -> cx).

Section Update.
Variable N : nat.
Variable ws : nat -> cg.
Variable ds : list nat.
Hypothesis HH : hermitian_chain N ws ds.
Variables (stev : list real -> list real -> list real * list real) (maxit : nat) (size : list nat -> nat) (close : real -> real -> bool).
Hypothesis Hmax : 2 <= maxit.
Notation lenv := (left_env (res cg) (res cg) w_triv (w_grow ws)). Notation renv := (right_env (res cg) (res cg) w_triv (w_grow ws) N).
Notation opt := (opt (res cg) (res cg) (res (real * real)) w_triv (w_grow ws) (v_update_e ws stev maxit size r_svd r_err close) N).
(** an update of a normalized eigenstate: the solver returns it as it is, one row is kept *)
Lemma row_update : forall rt l rs ts e0 E, l + 1 < N -> holds N rs ts -> chain N ws ds ts -> mixed_at N l ts -> sq_norm N ts = c1 -> eigenstate N ws ds (amp N ts) E ->
  exists x a b, gcontract cx c0 cadd cmul [2] [0] (ts l) (ts (l + 1)) = Ok x /\ g_ip (cgd x) (cge x) (cge x) = c1 /\
  opt (rt, l) (rs, e0) = (fset (fset rs l (Ok a)) (l + 1) (Ok b), Some (Ok (E, r_err x))) /\
  let ts' := fset (fset ts l a) (l + 1) b in
  chain N ws ds ts' /\ (if rt then cleft (cten_of a) else cright (cten_of b)) /\
  csplits (nth 0 (cgd x) 0) (nth 1 (cgd x) 0) (nth 2 (cgd x) 0) (nth 3 (cgd x) 0) (e4 (r_kept x)) (cten_of a) (cten_of b) /\
  (rt = true -> a = fst (fst (r_svd 2 x))).
Proof.
  intros rt l rs ts e0 E Hl HR HC [ML MR] NN HE.
  destruct (two_problem_to N ws ds HH r_svd ts l HC Hl) as [el [er [x [z [L1 [R1 [X1 [Z1 [MH [NV [_ SP]]]]]]]]]]]; [intros; apply ML; lia|intros; apply MR; lia|].
  cbv zeta in *. assert (LE : lenv rs l = Ok el) by (rewrite (lenv_lenvs N ws rs ts l) by (auto; lia); exact L1).
  assert (RE : renv rs (N - (l + 2)) = Ok er) by (rewrite (renv_renvs N ws rs ts) by (auto; lia); replace (N - (N - (l + 2))) with (l + 2) by lia; exact R1).
  assert (T1 : rs l = Ok (ts l)) by (apply HR; lia). assert (T2 : rs (l + 1) = Ok (ts (l + 1))) by (apply HR; lia).
  assert (EV := two_eigen N ws ds ts l el er x E HC Hl ltac:(intros; apply ML; lia) ltac:(intros; apply MR; lia) L1 R1 X1 HE). rewrite NN in NV.
  assert (N1 : g_ip (cgd x) (cge x) (cge x) <> c0) by (rewrite NV; unfold c0, c1; intros X; injection X as X; lra).
  destruct (lanczos_eigen (cgd x) (h_two ws l el er (cgd x)) MH stev maxit (size (cgd x)) Hmax (cge x) E) with (close := close) as [r [g [n [RUN [_ [G2 [G3 [G4 G5]]]]]]]]; [exact N1|exact EV|].
  rewrite NV in G4. unfold cmul, cre, c1 in G4. cbn [fst snd] in G4. injection G4 as G4. assert (n = 1%R) by nra. subst n.
  assert (g = cge x). { rewrite G5. apply functional_extensionality. intros k. unfold g_scale. rewrite Rinv_1. change (cre 1) with c1. ring. } clear G5. subst g.
  assert (XE : mkG cx (cgd x) (cge x) = x) by (destruct x; reflexivity).
  destruct (cut2_at N ws ds ts l HC Hl) as [D0 [p1 [D [p2 [D3 [E1 [E2 _]]]]]]]. destruct (pair_ok cx c0 cadd cmul _ _ _ _ _ _ _ E1 E2) as [x' [X1' [X2 _]]]. rewrite X1 in X1'. injection X1' as <-.
  destruct (r_svd_kept x _ _ _ _ X2 N1) as [FA [CA _]]. specialize (SP rt (cge x) (r_kept x)). rewrite !XE in SP. destruct (SP FA CA) as [a [b [S1 [S2 [S3 [_ [_ [S6 S7]]]]]]]].
  exists x, a, b. split; [exact X1|]. split; [exact NV|]. split; [|split; [exact S2|split; [exact S3|split; [exact S6|]]]].
  - unfold SweepSpec.opt. rewrite LE, RE, T1, T2. unfold v_update_e. cbn [bind]. rewrite X1. cbn [bind]. rewrite Z1. cbn [bind]. rewrite RUN. cbn [bind]. rewrite XE, S1. cbn [bind]. rewrite G2. reflexivity.
  - intros ->. exact S7.
Qed.
End Update.

(** *** the chain *)
Section Gen.
Variable h : cx.
Definition o_gen (i : nat) : cg :=
  match i with
  | 0 => mkG cx [1; 2; 1] (fun l => cdelta (nth 1 l 0) 0)
  | 1 => mkG cx [1; 2; 2] (fun l => if nth 1 l 0 =? nth 2 l 0 then h else c0)
  | _ => mkG cx [2; 2; 1] (fun l => cdelta (nth 0 l 0) (nth 1 l 0))
  end.
End Gen.
Definition o_op (i s s' : nat) : cx := match i with 0 => oI s s' | 1 => copp (oX s s') | _ => oX s s' end.
Definition o_ws (i : nat) : cg := mkG cx [1; 2; 2; 1] (fun l => o_op i (nth 1 l 0) (nth 2 l 0)).
Definition o_ts : nat -> cg := o_gen (cre q_half).
Lemma o_herm : hermitian_chain 3 o_ws [2; 2; 2].
Proof.
  unfold hermitian_chain. unfold sites. rewrite map_map. apply (entries_hermitian 3 (fun i => csite_of (o_ws i))).
  assert (HI : forall s s', oI s s' = cconj (oI s' s)) by (intros; unfold oI, delta; rewrite (Nat.eqb_sym s'); destruct (s =? s'); symmetry; [apply cconj1|apply cconj0]).
  assert (HX : forall s s', oX s s' = cconj (oX s' s)) by (intros; unfold oX; rewrite (Nat.add_comm s'); destruct (s + s' =? 1); symmetry; [apply cconj1|apply cconj0]).
  intros i x y s s'. unfold mval at 1 2. cbn [site_of ent o_ws ge nth]. destruct i as [|[|i]]; cbn [o_op]; auto. rewrite cconj_opp, <- HX. reflexivity.
Qed.
Lemma o_chain : chain 3 o_ws [2; 2; 2] o_ts.
Proof. split; [|reflexivity]. split; [|split; cbn; auto]. repeat constructor; repeat eexists. Qed.
Lemma o_mixed : mixed_at 3 0 o_ts.
Proof.
  split; intros i Hi; [lia|]. replace i with 2 by lia. intros k k' Hk Hk'. unfold o_ts in *. cbn [o_gen Legs.ten_of gd ge nth d0 d1 d2 el] in *. cbn [FmpsSpec.sumn].
  destruct k as [|[|k]]; [| |lia]; (destruct k' as [|[|k']]; [| |lia]); unfold delta; cbn [Nat.eqb]; rewrite ?cconj0, ?cconj1; ring.
Qed.
Lemma o_amp : forall h a b c, a < 2 -> b < 2 -> c < 2 -> amp 3 (o_gen h) [a; b; c] = if (a =? 0) && (b =? c) then h else c0.
Proof. intros h a b c Ha Hb Hc. destruct a as [|[|a]]; [| |lia]; (destruct b as [|[|b]]; [| |lia]); (destruct c as [|[|c]]; [| |lia]); unfold amp; cbn -[cadd cmul c0 c1]; unfold delta; cbn [Nat.eqb]; ring. Qed.
Lemma o_eigen : forall h, eigenstate 3 o_ws [2; 2; 2] (amp 3 (o_gen h)) (-1).
Proof.
  intros h c' Ic. replace (cre (-1)) with (copp c1) by (unfold cre, copp, c1; cbn [fst snd]; f_equal; ring). rewrite cfg_222 in Ic.
  cbn [In] in Ic. repeat (destruct Ic as [<-|Ic]; [rewrite cfg_222; cbn [lsum fold_right]; rewrite !o_amp by lia; cbn -[cadd cmul cconj copp c0 c1]; unfold o_op, oX, oI, delta, mval; cbn -[cadd cmul cconj copp c0 c1]; ring|]). destruct Ic.
Qed.
Lemma q_two : cadd (cmul (cconj (cre q_half)) (cre q_half)) (cmul (cconj (cre q_half)) (cre q_half)) = c1.
Proof. pose proof q_sq as Q. unfold c1, cadd, cmul, cconj, cre. cbn [fst snd]. f_equal; lra. Qed.
Lemma o_norm : sq_norm 3 o_ts = c1.
Proof.
  rewrite <- (weight_norm 3 o_ws [2; 2; 2] o_ts o_chain). unfold weight. rewrite cfg_222. cbn [lsum fold_right]. unfold o_ts. rewrite !o_amp by lia. cbn [Nat.eqb andb].
  rewrite cconj0. rewrite <- q_two. ring.
Qed.
(** the first row is the one that is kept *)
Lemma row_first : forall D0 p1 p2 D3 x, 0 < D0 -> 0 < p1 -> (0 < fst (row_w p2 D3 x (0%nat, 0%nat)))%R -> row D0 p1 p2 D3 x = (0, 0).
Proof.
  intros D0 p1 p2 D3 x H0 H1 HW. unfold row. destruct D0 as [|D0]; [lia|]. destruct p1 as [|p1]; [lia|]. cbn [seq list_prod map app find]. unfold row_nz at 1. destruct (Req_EM_T _ 0); [lra|reflexivity].
Qed.
Definition o_w {En} : world (res cg) (res cg) En := mkW _ _ _ 3 fnone 0 fnone fnone None None (fun i => Some (Ok (o_ts i))) fnone fnone false.
Section Run.
Variables (stev : list real -> list real -> list real * list real) (maxit : nat) (size : list nat -> nat) (close : real -> real -> bool).
Hypothesis Hmax : 2 <= maxit.
Notation opts := (opts (res cg) (res cg) (res (real * real)) w_triv (w_grow o_ws) (v_update_e o_ws stev maxit size r_svd r_err close) 3).
Notation opt := (opt (res cg) (res cg) (res (real * real)) w_triv (w_grow o_ws) (v_update_e o_ws stev maxit size r_svd r_err close) 3).
Lemma o_first : exists a b, opt (true, 0) (fun i => Ok (o_ts i), None) = (fset (fset (fun i => Ok (o_ts i)) 0 (Ok a)) 1 (Ok b), Some (Ok ((-1)%R, 0%R))) /\
  let t1 := fset (fset o_ts 0 a) 1 b in chain 3 o_ws [2; 2; 2] t1 /\ mixed_at 3 1 t1 /\ sq_norm 3 t1 = c1 /\ eigenstate 3 o_ws [2; 2; 2] (amp 3 t1) (-1) /\
  cgd a = [1; 2; 1] /\ (forall s, cge a [0; s; 0] = if s =? 0 then c1 else c0) /\ cgd b = [1; 2; 2] /\ (forall s k, s < 2 -> k < 2 -> cge b [0; s; k] = if s =? k then cre q_half else c0).
Proof.
  destruct (row_update 3 o_ws [2; 2; 2] o_herm stev maxit size close Hmax true 0 (fun i => Ok (o_ts i)) o_ts None (-1)) as [x [a [b [X1 [NV [U [C1 [L1 [SP A1]]]]]]]]]; auto using o_chain, o_mixed, o_norm, (o_eigen (cre q_half)).
  { intros i _. reflexivity. }
  destruct (pair_ok cx c0 cadd cmul (o_ts 0) (o_ts 1) 1 2 1 2 2 eq_refl eq_refl) as [x' [X1' [X2 X3]]]. change (0 + 1) with 1 in *. rewrite X1 in X1'. injection X1' as <-.
  assert (XE : forall s t k, cge x [0; s; t; k] = if (s =? 0) && (t =? k) then cre q_half else c0).
  { intros s t k. change (cge x [0; s; t; k]) with (elems4 cx x 0 s t k). rewrite X3. unfold two_site. unfold o_ts. cbn [Legs.ten_of o_gen gd nth d2 el ge FmpsSpec.sumn]. unfold delta. destruct (s =? 0), (t =? k); cbn [andb]; ring. }
  assert (W : row_w 2 2 (cge x) (0, 0) = c1).
  { unfold row_w. cbn [FmpsSpec.sumn fst snd]. rewrite !XE. cbn [Nat.eqb andb]. rewrite cconj0. rewrite <- q_two. ring. }
  assert (RW : row 1 2 2 2 (cge x) = (0, 0)) by (apply row_first; [lia|lia|rewrite W; cbn; lra]).
  assert (KE : forall s t k, s < 2 -> r_kept x [0; s; t; k] = cge x [0; s; t; k]).
  { intros s t k Hs. unfold r_kept. rewrite X2. cbn [nth]. rewrite RW. cbn [fst snd]. rewrite XE. destruct s as [|s]; [reflexivity|]. reflexivity. }
  rewrite X2 in SP. cbn [nth] in SP. specialize (A1 eq_refl). unfold r_svd in A1. rewrite X2 in A1. cbn [nth fst] in A1. rewrite RW in A1. cbn [fst snd] in A1.
  assert (DB : cgd b = [1; 2; 2]).
  { destruct (cut2_at 3 o_ws [2; 2; 2] _ 0 C1 ltac:(lia)) as [D0 [p1 [D [p2 [D3 [E1 [E2 _]]]]]]]. unfold fset in E2. cbn [Nat.eqb Nat.add] in E2. destruct (ten_dims cx _ _ _ _ E2) as [B0 [B1 B2]].
    pose proof (fa_m _ _ _ _ _ _ _ _ _ _ _ SP) as M. pose proof (fa_2 _ _ _ _ _ _ _ _ _ _ _ SP) as M2. pose proof (fa_3 _ _ _ _ _ _ _ _ _ _ _ SP) as M3. rewrite A1 in M. cbn [Legs.ten_of d2 gd nth] in M. congruence. }
  assert (T : times 3 [2; 2; 2] c1 (fset (fset o_ts 0 a) 1 b) o_ts).
  { apply (two_times 3 o_ws [2; 2; 2] o_ts 0 x a b (r_kept x) c1 o_chain ltac:(lia) X1).
    - intros k Ik. rewrite X2 in Ik. destruct (cfg4 _ _ _ _ _ Ik) as [u [s [t [y [-> [Hu [Hs _]]]]]]]. replace u with 0 by lia. rewrite KE by auto. unfold g_scale. ring.
    - rewrite X2. exact SP. }
  exists a, b. split; [|split; [exact C1|split; [|split; [|split; [|split; [|split; [|split]]]]]]].
  - rewrite U. do 4 f_equal. unfold r_err. rewrite NV, X2. cbn [nth]. rewrite RW, W. cbn. lra.
  - apply (set_mixed_at 3 maxit Hmax) with (rt := true) (l := 0) (a := a) (b := b); auto using o_mixed.
  - rewrite (EigenRun.times_norm 3 o_ws [2; 2; 2] _ _ _ o_chain C1 T), o_norm. unfold ab2, cre, cmul, c1. cbn [fst snd]. f_equal; ring.
  - exact (times_eigen 3 o_ws [2; 2; 2] _ _ _ _ T (o_eigen (cre q_half))).
  - rewrite A1. reflexivity.
  - intros s. rewrite A1. cbn [ge nth]. cbn [Nat.eqb andb]. reflexivity.
  - exact DB.
  - intros s k Hs Hk. pose proof (fa_eq _ _ _ _ _ _ _ _ _ _ _ SP 0 0 s k ltac:(lia) ltac:(lia) Hs Hk) as Q. cbv beta in Q. rewrite KE, XE in Q by lia. rewrite A1 in Q. unfold two_site in Q. cbn [Legs.ten_of gd ge nth d2 el FmpsSpec.sumn Nat.eqb andb] in Q. rewrite <- Q. ring.
Qed.
Lemma o_second : exists rs' ts', opts [(true, 0); (false, 1)] (fun i => Ok (o_ts i), None) = (rs', Some (Ok ((-1)%R, (1 / 2)%R))) /\
  holds 3 rs' ts' /\ chain 3 o_ws [2; 2; 2] ts' /\ mixed_at 3 0 ts' /\ (forall a b c, a < 2 -> b < 2 -> c < 2 -> amp 3 ts' [a; b; c] = if (a =? 0) && (b =? 0) && (c =? 0) then cre q_half else c0).
Proof.
  destruct o_first as [a [b [U [C1 [M1 [N1 [E1 [A1 [A2 [B1 B2]]]]]]]]]]. cbv zeta in *. set (t1 := fset (fset o_ts 0 a) 1 b) in *. set (r1 := fset (fset (fun i => Ok (o_ts i)) 0 (Ok a)) 1 (Ok b)) in *.
  assert (R1 : holds 3 r1 t1) by (apply (set_holds 3 (fun i => Ok (o_ts i)) o_ts 0 a b); intros i _; reflexivity).
  destruct (row_update 3 o_ws [2; 2; 2] o_herm stev maxit size close Hmax false 1 r1 t1 (Some (Ok ((-1)%R, 0%R))) (-1)) as [x [a' [b' [X1 [NV [U' [C2 [L2 [SP _]]]]]]]]]; auto.
  destruct (pair_ok cx c0 cadd cmul (t1 1) (t1 2) 1 2 2 2 1 B1 eq_refl) as [x' [X1' [X2 X3]]]. change (1 + 1) with 2 in *. rewrite X1 in X1'. injection X1' as <-.
  assert (XE : forall s t, s < 2 -> t < 2 -> cge x [0; s; t; 0] = if s =? t then cre q_half else c0).
  { intros s t Hs Ht. change (cge x [0; s; t; 0]) with (elems4 cx x 0 s t 0). rewrite X3. unfold two_site. change (t1 1) with b. change (t1 2) with (o_ts 2). cbn [Legs.ten_of d2 el]. rewrite B1. cbn [nth FmpsSpec.sumn]. unfold o_ts. cbn [o_gen ge nth].
    rewrite !B2 by lia. destruct t as [|[|t]]; [| |lia]; unfold delta; cbn [Nat.eqb]; ring. }
  assert (W : row_w 2 1 (cge x) (0, 0) = cre (1 / 2)).
  { unfold row_w. cbn [FmpsSpec.sumn fst snd]. rewrite !XE by lia. cbn [Nat.eqb]. pose proof q_sq as Q. unfold c0, cadd, cmul, cconj, cre. cbn [fst snd]. f_equal; lra. }
  assert (RW : row 1 2 2 1 (cge x) = (0, 0)) by (apply row_first; [lia|lia|rewrite W; cbn; lra]).
  assert (KE : forall s t, s < 2 -> t < 2 -> r_kept x [0; s; t; 0] = if (s =? 0) && (t =? 0) then cre q_half else c0).
  { intros s t Hs Ht. unfold r_kept. rewrite X2. cbn [nth]. rewrite RW. cbn [fst snd]. rewrite XE by auto. destruct s as [|[|s]]; [| |lia]; (destruct t as [|[|t]]; [| |lia]); reflexivity. }
  rewrite X2 in SP. cbn [nth] in SP.
  exists (fset (fset r1 1 (Ok a')) 2 (Ok b')), (fset (fset t1 1 a') 2 b'). split; [|split; [|split; [exact C2|split]]].
  - cbn [SweepSpec.opts fold_left]. rewrite U, U'. do 4 f_equal. unfold r_err. rewrite NV, X2. cbn [nth]. rewrite RW, W. cbn. lra.
  - exact (set_holds 3 r1 t1 1 a' b' R1).
  - apply (set_mixed_at 3 maxit Hmax) with (rt := false) (l := 1) (a := a') (b := b'); auto.
  - intros u v w Hu Hv Hw. unfold amp. change (map cten_of (sites 3 (fset (fset t1 1 a') 2 b'))) with ([cten_of a] ++ [cten_of a'; cten_of b'] ++ []). change [u; v; w] with ([u] ++ [v; w] ++ []).
    destruct (ten_dims cx _ _ _ _ A1) as [D0 [D1 D2]].
    rewrite (mid_whole cx c0 c1 cadd cmul csub copp cx_ring [cten_of a] [] (cten_of a') (cten_of b') (e4 (r_kept x)) 1 2 2 1); auto.
    + unfold whole. cbn [FmpsSpec.sumn mps_mat]. rewrite D2. cbn [FmpsSpec.sumn]. cbn [Legs.ten_of el]. rewrite A2, KE by auto. unfold delta. destruct u as [|[|u]]; [| |lia]; cbn [Nat.eqb andb]; (destruct ((v =? 0) && (w =? 0)); ring).
    + cbn [fit]. rewrite D0, D2. auto.
    + cbn [map]. rewrite D1. cbn. destruct u as [|[|u]]; [| |lia]; auto.
Qed.
Lemma o_stored : forall ts, chain 3 o_ws [2; 2; 2] ts -> (forall a b c, a < 2 -> b < 2 -> c < 2 -> amp 3 ts [a; b; c] = if (a =? 0) && (b =? 0) && (c =? 0) then cre q_half else c0) ->
  sq_norm 3 ts = cre (1 / 2) /\ energy_val 3 o_ws ts = c0.
Proof.
  intros ts HC HA. split.
  - rewrite <- (weight_norm 3 o_ws [2; 2; 2] ts HC). unfold weight. rewrite cfg_222. cbn [lsum fold_right]. rewrite !HA by lia. cbn [Nat.eqb andb]. rewrite cconj0. pose proof q_sq as Q.
    replace (cre (1 / 2)) with (cmul (cconj (cre q_half)) (cre q_half)); [ring|]. unfold cmul, cconj, cre. cbn [fst snd]. f_equal; lra.
  - unfold energy_val, EffHamSpec.energy. rewrite (proj2 HC). cbv zeta.
    change (lsum cx c0 cadd (configs [2; 2; 2]) (fun c' => lsum cx c0 cadd (configs [2; 2; 2]) (fun c => cmul (cmul (cconj (amp 3 ts c')) (mpo_mat cx c0 c1 cadd cmul (map csite_of (sites 3 o_ws)) c c' 0 0)) (amp 3 ts c))) = c0).
    rewrite cfg_222. cbn [lsum fold_right]. rewrite !HA by lia. cbn -[cadd cmul cconj copp c0 c1 q_half cre]. unfold o_op, oX, oI, delta, mval. cbn -[cadd cmul cconj copp c0 c1 q_half cre]. rewrite cconj0. ring.
Qed.
Variables (dT dE : res cg) (canoL canoR : res cg -> res cg -> res cg * res cg) (dbg : bool).
Notation run := (run_two_site (res cg) (res cg) (res (real * real)) dT dE w_triv (w_grow o_ws) (v_update_e o_ws stev maxit size r_svd r_err close) canoL canoR dbg).
Lemma o_run : exists w' rs' ts', run 1 o_w = Ok (Ok ((-1)%R, (1 / 2)%R), w') /\ startable (res cg) (res cg) (res (real * real)) w_triv (w_grow o_ws) 3 rs' w' /\ holds 3 rs' ts' /\ chain 3 o_ws [2; 2; 2] ts' /\
  sq_norm 3 ts' = cre (1 / 2) /\ energy_val 3 o_ws ts' = c0.
Proof.
  destruct (TwoSiteFacts.run_ok (res cg) (res cg) (res (real * real)) dT dE w_triv (w_grow o_ws) (v_update_e o_ws stev maxit size r_svd r_err close) canoL canoR dbg 3 (fun i => Ok (o_ts i)) 0 o_w ltac:(lia)) as [e [w' [A1 [A2 [A3 _]]]]].
  { split; [reflexivity|]. split; [intros i _; reflexivity|]. split; [intros i _; reflexivity|]. intros H. discriminate. }
  destruct o_second as [rs' [ts' [B1 [B2 [B3 [B4 B5]]]]]].
  change (sweeps_spec (res cg) (res cg) (res (real * real)) w_triv (w_grow o_ws) (v_update_e o_ws stev maxit size r_svd r_err close) 3 0 (3 - 1) 1 (fun i => Ok (o_ts i), None)) with (opts [(true, 0); (false, 1)] (fun i => Ok (o_ts i), None)) in *.
  rewrite B1 in *. cbn [fst snd] in *. injection A2 as <-. exists w', rs', ts'. split; [exact A1|]. split; [exact A3|]. split; [exact B2|]. split; [exact B3|]. exact (o_stored ts' B3 B5).
Qed.
End Run.
(** 1 - X_1 X_2 is a sum of squares *)
Lemma o_bounded : bounded_below 3 o_ws [2; 2; 2] (-1).
Proof.
  intros v. unfold weight. rewrite cfg_222. cbn [lsum fold_right].
  repeat match goal with |- context [mpo_mat cx c0 c1 cadd cmul (map csite_of (sites 3 o_ws)) ?c ?c' 0 0] =>
    let z := eval cbn -[cadd cmul copp c0 c1 o_op] in (mpo_mat cx c0 c1 cadd cmul (map csite_of (sites 3 o_ws)) c c' 0 0) in
    let z := eval cbv [o_op oX oI delta Nat.add Nat.eqb] in z in
    (replace (mpo_mat cx c0 c1 cadd cmul (map csite_of (sites 3 o_ws)) c c' 0 0) with c0 by (change (c0 = z); ring)) ||
    (replace (mpo_mat cx c0 c1 cadd cmul (map csite_of (sites 3 o_ws)) c c' 0 0) with (copp c1) by (change (copp c1 = z); ring)) end.
  generalize (v [0;0;0]) (v [0;0;1]) (v [0;1;0]) (v [0;1;1]) (v [1;0;0]) (v [1;0;1]) (v [1;1;0]) (v [1;1;1]). intros x0 x1 x2 x3 x4 x5 x6 x7.
  match goal with |- (_ * fst ?w <= fst ?z)%R => replace z with (copp (cadd (cadd (cadd (cmul (cconj x0) x3) (cmul (cconj x3) x0)) (cadd (cmul (cconj x1) x2) (cmul (cconj x2) x1))) (cadd (cadd (cmul (cconj x4) x7) (cmul (cconj x7) x4)) (cadd (cmul (cconj x5) x6) (cmul (cconj x6) x5))))) by ring end.
  destruct x0 as [a0 b0], x1 as [a1 b1], x2 as [a2 b2], x3 as [a3 b3], x4 as [a4 b4], x5 as [a5 b5], x6 as [a6 b6], x7 as [a7 b7].
  unfold cadd, cmul, cconj, copp, c0, c1. cbn [fst snd].
  match goal with |- (?x <= ?y)%R => assert (E : (y - x = (a0 - a3) * (a0 - a3) + (b0 - b3) * (b0 - b3) + ((a1 - a2) * (a1 - a2) + (b1 - b2) * (b1 - b2)) + ((a4 - a7) * (a4 - a7) + (b4 - b7) * (b4 - b7)) + ((a5 - a6) * (a5 - a6) + (b5 - b6) * (b5 - b6)))%R) by ring end.
  assert (P : forall a b : real, (0 <= a * a + b * b)%R) by (intros; nra).
  pose proof (P (a0 - a3)%R (b0 - b3)%R). pose proof (P (a1 - a2)%R (b1 - b2)%R). pose proof (P (a4 - a7)%R (b4 - b7)%R). pose proof (P (a5 - a6)%R (b5 - b6)%R). lra.
Qed.
