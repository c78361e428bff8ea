(** Proofs about Protocol.v: phase by phase, the worker consumes the master's events. *)
From Coq Require Import List Arith Lia Bool.
From Verif Require Import Base Protocol.
Import ListNotations.
Section P.
Variables (X : Type) (N : nat) (mpo : nat -> X) (x0 : X).
Lemma wrun_app td (a b : list (event X)) w : wrun X N mpo x0 td w (a ++ b) = (let! w' := wrun X N mpo x0 td w a in wrun X N mpo x0 td w' b).
Proof. revert w. induction a as [|e a IH]; cbn; intros; auto. destruct (wstep X N mpo x0 td w e); cbn; auto. Qed.
Lemma farms_app (a b : list (event X)) : farms X (a ++ b) = farms X a ++ farms X b.
Proof. apply flat_map_app. Qed.
Definition updates {A B} (f : A -> list B) (l : list A) := flat_map f l.
(** [at_top w]: between two orders, nothing on the heap *)
Definition at_top (w : worker X) : Prop := w_ctl X w = CTop X /\ w_heap X w = [].
(** what a phase does to a worker: k tensors made and deleted, the exchanges of the trace logged *)
Definition does td (t : list (event X)) (k : nat) : Prop :=
  forall w, at_top w -> exists w', wrun X N mpo x0 td w t = Ok w' /\ at_top w' /\ w_new X w' = w_new X w + k /\ w_del X w' = w_del X w + k
    /\ w_lost X w' = w_lost X w /\ w_log X w' = w_log X w ++ farms X t.
Lemma does_nil td : does td [] 0.
Proof. intros w H. exists w. cbn. rewrite app_nil_r. repeat split; auto; try lia; apply H. Qed.
Lemma does_app td a b k k' : does td a k -> does td b k' -> does td (a ++ b) (k + k').
Proof.
  intros Ha Hb w Hw. destruct (Ha w Hw) as (w1 & R1 & T1 & A1 & D1 & L1 & G1). destruct (Hb w1 T1) as (w2 & R2 & T2 & A2 & D2 & L2 & G2).
  exists w2. rewrite wrun_app, R1. cbn. rewrite farms_app, app_assoc, <- G1, <- G2. repeat split; auto; try lia; try apply T2; congruence.
Qed.
Lemma does_flat td {A} (f : A -> list (event X)) k l : (forall a, In a l -> does td (f a) k) -> does td (flat_map f l) (k * length l).
Proof.
  induction l as [|a l IH]; intros H; cbn [flat_map length].
  - rewrite Nat.mul_0_r. apply does_nil.
  - replace (k * S (length l)) with (k + k * length l) by lia. apply does_app; [apply H; left; auto|apply IH; intros; apply H; right; auto].
Qed.
(** inside the solver: both environments are on the heap *)
Definition in_lanczos (w : worker X) (l : nat) (le re : X) (c : wctl X) : Prop :=
  w_ctl X w = c /\ exists f, w_heap X w = [(f + 1, re); (f, le)] /\ w_p0 X w = Some f /\ w_p3 X w = Some (f + 1) /\ w_m1 X w = Some l /\ w_m2 X w = Some (l + 1).
Ltac go f := let E1 := fresh in let E2 := fresh in
  assert (E1 : (f + 1 =? f) = false) by (apply Nat.eqb_neq; lia); assert (E2 : (f =? f + 1) = false) by (apply Nat.eqb_neq; lia);
  repeat (progress (cbn; unfold deref, lookup, delete, store, deref; cbn; rewrite ?E1, ?E2, ?Nat.eqb_refl)); reflexivity.
Ltac fin f := repeat split; auto; try (cbn; lia); try (exists f; cbn; auto).
Lemma mul_ok td l (u : upd_data X) x w : in_lanczos w l (u_lenv X u) (u_renv X u) (CMul X) ->
  exists w', wrun X N mpo x0 td w (m_mul X mpo l u x) = Ok w' /\ in_lanczos w' l (u_lenv X u) (u_renv X u) (CMulOrd X)
    /\ w_new X w' = w_new X w /\ w_del X w' = w_del X w /\ w_lost X w' = w_lost X w /\ w_log X w' = w_log X w ++ farms X (m_mul X mpo l u x).
Proof.
  destruct w as [c h fr p0 p3 m1 m2 nw de lo lg]. intros (C & f & H & P0 & P3 & M1 & M2). cbn in C, H, P0, P3, M1, M2. subst.
  unfold m_mul. eexists. split; [go f|]. fin f.
Qed.
Lemma more_ok td l (u : upd_data X) xs : forall w, in_lanczos w l (u_lenv X u) (u_renv X u) (CMulOrd X) ->
  exists w', wrun X N mpo x0 td w (flat_map (fun x => EOrd X lanczos_mat_vec_dynamic :: m_mul X mpo l u x) xs) = Ok w' /\ in_lanczos w' l (u_lenv X u) (u_renv X u) (CMulOrd X)
    /\ w_new X w' = w_new X w /\ w_del X w' = w_del X w /\ w_lost X w' = w_lost X w
    /\ w_log X w' = w_log X w ++ farms X (flat_map (fun x => EOrd X lanczos_mat_vec_dynamic :: m_mul X mpo l u x) xs).
Proof.
  induction xs as [|x xs IH]; intros w H.
  - exists w. cbn. rewrite app_nil_r. repeat split; auto; apply H.
  - cbn [flat_map]. destruct H as (C & HR).
    assert (H1 : in_lanczos (goto X w (CMul X)) l (u_lenv X u) (u_renv X u) (CMul X)) by (split; [reflexivity|exact HR]).
    destruct (mul_ok td l u x _ H1) as (w1 & R1 & I1 & A1 & D1 & L1 & G1). destruct (IH w1 I1) as (w2 & R2 & I2 & A2 & D2 & L2 & G2).
    exists w2. rewrite wrun_app. cbn [wrun app]. replace (wstep X N mpo x0 td w (EOrd X lanczos_mat_vec_dynamic)) with (Ok (goto X w (CMul X))) by (unfold wstep; rewrite C; reflexivity).
    cbn [bind]. rewrite R1. cbn [bind]. rewrite R2. split; [auto|split; [auto|]]. split; [cbn in *; congruence|split; [cbn in *; congruence|split; [cbn in *; congruence|]]].
    rewrite G2, G1, <- app_assoc. reflexivity.
Qed.
Lemma update_does td dir l u : l + 1 < N -> (td = true -> u_exp X u = None) -> does td (m_update X mpo dir l u) 2.
Proof.
  intros HL HT w (C & HH). unfold m_update. rewrite wrun_app.
  (* the site, the environments, the first product *)
  assert (E1 : exists w1, wrun X N mpo x0 td w ([EOrd X lanczos; ENum X l] ++ [ETen X (u_lenv X u); ETen X (u_renv X u)]) = Ok w1 /\ in_lanczos w1 l (u_lenv X u) (u_renv X u) (CMul X)
     /\ w_new X w1 = w_new X w + 2 /\ w_del X w1 = w_del X w /\ w_lost X w1 = w_lost X w /\ w_log X w1 = w_log X w).
  { destruct w as [c h fr p0 p3 m1 m2 nw de lo lg]. cbn in C, HH. subst. eexists. split.
    - cbn. unfold alloc. replace (l + 1 <? N) with true by (symmetry; apply Nat.ltb_lt; lia). go fr.
    - fin fr. }
  destruct E1 as (w1 & R1 & I1 & A1 & D1 & L1 & G1).
  destruct (mul_ok td l u (u_first X u) _ I1) as (w2 & R2 & I2 & A2 & D2 & L2 & G2).
  destruct (more_ok td l u (u_more X u) _ I2) as (w3 & R3 & I3 & A3 & D3 & L3 & G3).
  set (w4 := goto X w3 (CTop X)).
  assert (I4 : in_lanczos w4 l (u_lenv X u) (u_renv X u) (CTop X)) by (split; [reflexivity|apply I3]).
  assert (R14 : wrun X N mpo x0 td w ([EOrd X lanczos; ENum X l] ++ m_lanczos X mpo l u) = Ok w4).
  { unfold m_lanczos. rewrite app_assoc, wrun_app, R1. cbn [bind]. rewrite wrun_app, R2. cbn [bind]. rewrite wrun_app, R3. cbn [bind wrun]. unfold wstep. destruct I3 as (-> & _). reflexivity. }
  rewrite wrun_app in R14. rewrite <- wrun_app. rewrite app_assoc, wrun_app, wrun_app, R14. cbn [bind]. clear R14.
  assert (E5 : exists w5, wrun X N mpo x0 td w4 (m_expand X mpo dir l u) = Ok w5 /\ in_lanczos w5 l (u_lenv X u) (u_renv X u) (CTop X)
     /\ w_new X w5 = w_new X w4 /\ w_del X w5 = w_del X w4 /\ w_lost X w5 = w_lost X w4 /\ w_log X w5 = w_log X w4 ++ farms X (m_expand X mpo dir l u)).
  { unfold m_expand. destruct (u_exp X u) as [gs|] eqn:EX.
    - destruct td; [discriminate HT; auto|]. clear - I4. destruct w4 as [c h fr p0 p3 m1 m2 nw de lo lg]. destruct I4 as (C & f & H & P0 & P3 & M1 & M2). cbn in C, H, P0, P3, M1, M2. subst.
      destruct dir; (eexists; split; [go f|]); fin f.
    - exists w4. cbn. rewrite app_nil_r. repeat split; auto; apply I4. }
  destruct E5 as (w5 & R5 & I5 & A5 & D5 & L5 & G5). rewrite wrun_app, R5. cbn [bind].
  assert (E6 : exists w6, wrun X N mpo x0 td w5 ([EOrd X svd; ESvd X] ++ (if dir then m_grow_left X mpo l u else m_grow_right X mpo l u)) = Ok w6 /\ at_top w6
     /\ w_new X w6 = w_new X w5 /\ w_del X w6 = w_del X w5 + 2 /\ w_lost X w6 = w_lost X w5 /\ w_log X w6 = w_log X w5 ++ farms X (if dir then m_grow_left X mpo l u else m_grow_right X mpo l u)).
  { clear - I5. destruct w5 as [c h fr p0 p3 m1 m2 nw de lo lg]. destruct I5 as (C & f & H & P0 & P3 & M1 & M2). cbn in C, H, P0, P3, M1, M2. subst.
    destruct dir; (eexists; split; [go f|]); fin f. }
  destruct E6 as (w6 & R6 & T6 & A6 & D6 & L6 & G6). exists w6. rewrite R6. split; [auto|split; [exact T6|]].
  assert (N4 : w_new X w4 = w_new X w3 /\ w_del X w4 = w_del X w3 /\ w_lost X w4 = w_lost X w3 /\ w_log X w4 = w_log X w3) by (repeat split). destruct N4 as (A4 & D4 & L4 & G4).
  repeat split; try congruence; try lia.
  unfold m_lanczos. rewrite !farms_app. rewrite G6, G5, G4, G3, G2, G1. cbn [farms flat_map is_farm app]. rewrite <- !app_assoc. reflexivity.
Qed.

Lemma start_does td : does td [EOrd X program_start; EReply X] 0.
Proof. intros w (C & H). exists (goto X (goto X w (CReply X)) (CTop X)). cbn. unfold wstep at 1. rewrite C. cbn. rewrite app_nil_r. repeat split; auto; lia. Qed.
Lemma grows_ok td (env mps : nat -> X) is : forall w, w_ctl X w = CInit X -> w_heap X w = [] ->
  exists w', wrun X N mpo x0 td w (flat_map (fun i => [EOrd X init_grow_env_grow; ETen X (mpo (N - i)); ETen X (env i); ETen X (mps i); EBar X; EFarm X FEnvR [env i; mpo (N - i); mps i]]) is) = Ok w'
   /\ w_ctl X w' = CInit X /\ w_heap X w' = [] /\ w_new X w' = w_new X w /\ w_del X w' = w_del X w /\ w_lost X w' = w_lost X w
   /\ w_log X w' = w_log X w ++ map (fun i => (FEnvR, [env i; mpo (N - i); mps i])) is.
Proof.
  induction is as [|i is IH]; intros w C H.
  - exists w. cbn. rewrite app_nil_r. repeat split; auto.
  - cbn [flat_map]. rewrite wrun_app.
    set (w1 := logged X w (CInit X) FEnvR [env i; mpo (N - i); mps i]).
    assert (E : wrun X N mpo x0 td w [EOrd X init_grow_env_grow; ETen X (mpo (N - i)); ETen X (env i); ETen X (mps i); EBar X; EFarm X FEnvR [env i; mpo (N - i); mps i]] = Ok w1).
    { cbn [wrun]. unfold wstep at 1. rewrite C. reflexivity. }
    rewrite E. cbn [bind]. destruct (IH w1) as (w2 & R & C2 & H2 & A2 & D2 & L2 & G2); [reflexivity|exact H|].
    exists w2. rewrite R. repeat split; auto. rewrite G2. cbn. rewrite <- app_assoc. reflexivity.
Qed.
Lemma farms_grows (env mps : nat -> X) is : farms X (flat_map (fun i => [EOrd X init_grow_env_grow; ETen X (mpo (N - i)); ETen X (env i); ETen X (mps i); EBar X; EFarm X FEnvR [env i; mpo (N - i); mps i]]) is)
   = map (fun i => (FEnvR, [env i; mpo (N - i); mps i])) is.
Proof. induction is as [|i is IH]; auto. cbn [flat_map]. rewrite farms_app, IH. reflexivity. Qed.
Lemma init_does lb env mps : does false (m_init X N mpo lb env mps) 0.
Proof.
  intros w (C & H). unfold m_init. rewrite wrun_app.
  replace (wrun X N mpo x0 false w [EOrd X init_grow_env]) with (Ok (goto X w (CInit X))) by (cbn; unfold wstep; rewrite C; reflexivity). cbn [bind].
  destruct (grows_ok false env mps (seq 1 (N - (lb + 2))) (goto X w (CInit X)) eq_refl H) as (w2 & R & C2 & H2 & A2 & D2 & L2 & G2).
  rewrite wrun_app, R. cbn [bind wrun]. unfold wstep. rewrite C2. cbn [bind]. exists (goto X w2 (CTop X)). split; [reflexivity|].
  split; [split; [reflexivity|exact H2]|]. cbn in *. repeat split; try lia.
  rewrite G2. f_equal. change (is_farm X (EOrd X init_grow_env) ++ farms X (flat_map (fun i => [EOrd X init_grow_env_grow; ETen X (mpo (N - i)); ETen X (env i); ETen X (mps i); EBar X; EFarm X FEnvR [env i; mpo (N - i); mps i]]) (seq 1 (N - (lb + 2))) ++ [EOrd X init_grow_env_finish]) = _ ) || idtac.
  unfold farms. rewrite ?flat_map_app. fold (farms X (flat_map (fun i => [EOrd X init_grow_env_grow; ETen X (mpo (N - i)); ETen X (env i); ETen X (mps i); EBar X; EFarm X FEnvR [env i; mpo (N - i); mps i]]) (seq 1 (N - (lb + 2))))).
  rewrite farms_grows. cbn. rewrite app_nil_r. reflexivity.
Qed.
Lemma sweep_does lb rb d : rb + 1 <= N -> does false (m_sweep X mpo lb rb d) (2 * ((rb - 1 - lb) + (rb + 1 - (lb + 2)))).
Proof.
  intros HR. unfold m_sweep. rewrite Nat.mul_add_distr_l. apply does_app.
  - rewrite <- (seq_length (rb - 1 - lb) lb) at 2. apply does_flat. intros i Hi. apply in_seq in Hi. apply update_does; [lia|discriminate].
  - rewrite <- (seq_length (rb + 1 - (lb + 2)) (lb + 2)) at 2. rewrite <- rev_length. apply does_flat. intros i Hi. apply in_rev, in_seq in Hi. apply update_does; [lia|discriminate].
Qed.
Lemma tdvp_sweep_does d : (forall r i, u_exp X (d r i) = None) -> does true (m_tdvp_sweep X N mpo d) (2 * ((N - 2) + (N - 2))).
Proof.
  intros HD. unfold m_tdvp_sweep. rewrite Nat.mul_add_distr_l. apply does_app.
  - rewrite <- (seq_length (N - 2) 0) at 2. apply does_flat. intros i Hi. apply in_seq in Hi. apply update_does; [lia|auto].
  - rewrite <- (seq_length (N - 2) 2) at 2. rewrite <- rev_length. apply does_flat. intros i Hi. apply in_rev, in_seq in Hi. apply update_does; [lia|auto].
Qed.
(** a whole run *)
Definition follows td (t : list (event X)) (k : nat) : Prop :=
  exists w, wrun X N mpo x0 td (worker0 X) t = Ok w /\ w_ctl X w = CDone X /\ w_heap X w = [] /\ w_new X w = k /\ w_del X w = k /\ w_lost X w = 0 /\ w_log X w = farms X t.
Lemma final_follows td t k : does td t k -> follows td (t ++ [EOrd X program_final]) k.
Proof.
  intros H. destruct (H (worker0 X)) as (w & R & (C & HH) & A & D & L & G); [split; reflexivity|].
  exists (goto X w (CDone X)). rewrite wrun_app, R. cbn [bind wrun]. unfold wstep. rewrite C. cbn. rewrite farms_app. cbn. rewrite app_nil_r. repeat split; auto.
Qed.
Lemma done_stuck td w e : w_ctl X w = CDone X -> wstep X N mpo x0 td w e = Abort.
Proof. intros C. unfold wstep. rewrite C. destruct e; reflexivity. Qed.
Lemma not_before td t t' w w' : wrun X N mpo x0 td w (t ++ t') = Ok w' -> t' <> [] -> exists v, wrun X N mpo x0 td w t = Ok v /\ w_ctl X v <> CDone X.
Proof.
  rewrite wrun_app. intros H HN. destruct (wrun X N mpo x0 td w t) as [v| |]; try discriminate. exists v. split; auto. intros C. cbn in H.
  destruct t' as [|e t']; [congruence|]. cbn in H. rewrite done_stuck in H by auto. discriminate.
Qed.
Lemma vmps_follows need lb rb sweeps env mps d : rb + 1 <= N -> follows false (m_vmps X N mpo need lb rb sweeps env mps d) (sweeps * (2 * ((rb - 1 - lb) + (rb + 1 - (lb + 2))))).
Proof.
  intros HR. unfold m_vmps. rewrite !app_assoc. apply final_follows.
  replace (sweeps * (2 * ((rb - 1 - lb) + (rb + 1 - (lb + 2))))) with ((0 + 0) + (2 * ((rb - 1 - lb) + (rb + 1 - (lb + 2)))) * length (seq 1 sweeps)) by (rewrite seq_length; lia).
  apply does_app; [apply does_app; [apply start_does|]|].
  - destruct need; [apply init_does|apply does_nil].
  - apply does_flat. intros. apply sweep_does. auto.
Qed.
Lemma tdvp_follows steps d : (forall s r i, u_exp X (d s r i) = None) -> follows true (m_tdvp X N mpo steps d) (steps * (2 * ((N - 2) + (N - 2)))).
Proof.
  intros HD. unfold m_tdvp. rewrite !app_assoc. apply final_follows.
  replace (steps * (2 * ((N - 2) + (N - 2)))) with (0 + (2 * ((N - 2) + (N - 2))) * length (seq 0 steps)) by (rewrite seq_length; lia).
  apply does_app; [apply start_does|]. apply does_flat. intros. apply tdvp_sweep_does. intros. apply HD.
Qed.

(** ** DMRG *)
Lemma drun_app (a b : list (event X)) w : drun X w (a ++ b) = (let! w' := drun X w a in drun X w' b).
Proof. revert w. induction a as [|e a IH]; cbn; intros; auto. destruct (dstep X w e); cbn; auto. Qed.
Definition ddoes (c c' : dctl X) (t : list (event X)) : Prop :=
  forall w, dw_ctl X w = c -> exists w', drun X w t = Ok w' /\ dw_ctl X w' = c' /\ dw_lost X w' = dw_lost X w /\ dw_log X w' = dw_log X w ++ farms X t.
Lemma ddoes_nil c : ddoes c c [].
Proof. intros w H. exists w. cbn. rewrite app_nil_r. auto. Qed.
Lemma ddoes_app c1 c2 c3 a b : ddoes c1 c2 a -> ddoes c2 c3 b -> ddoes c1 c3 (a ++ b).
Proof.
  intros Ha Hb w Hw. destruct (Ha w Hw) as (w1 & R1 & T1 & L1 & G1). destruct (Hb w1 T1) as (w2 & R2 & T2 & L2 & G2).
  exists w2. rewrite drun_app, R1. cbn. rewrite farms_app, app_assoc, <- G1, <- G2. repeat split; auto; congruence.
Qed.
Lemma ddoes_flat c {A} (f : A -> list (event X)) l : (forall a, In a l -> ddoes c c (f a)) -> ddoes c c (flat_map f l).
Proof. induction l as [|a l IH]; intros H; cbn [flat_map]; [apply ddoes_nil|]. eapply ddoes_app; [apply H; left; auto|apply IH; intros; apply H; right; auto]. Qed.
Lemma dstat_ok t xs : forall w, dw_ctl X w = BOrd X -> dw_ops X w = Some t ->
  exists w', drun X w (flat_map (fun x => [EOrd X lanczos_mat_vec_static; ETen X x; EFarm X FStat [t; x]]) xs) = Ok w' /\ dw_ctl X w' = BOrd X /\ dw_ops X w' = Some t /\ dw_lost X w' = dw_lost X w
   /\ dw_log X w' = dw_log X w ++ map (fun x => (FStat, [t; x])) xs.
Proof.
  induction xs as [|x xs IH]; intros w C H.
  - exists w. cbn. rewrite app_nil_r. auto.
  - cbn [flat_map]. rewrite drun_app.
    set (w1 := dlog X w (BOrd X) FStat [t; x]).
    assert (E : drun X w [EOrd X lanczos_mat_vec_static; ETen X x; EFarm X FStat [t; x]] = Ok w1).
    { cbn [drun]. unfold dstep at 1. rewrite C. cbn. unfold held. cbn. rewrite H. reflexivity. }
    rewrite E. cbn [bind]. destruct (IH w1) as (w2 & R & C2 & O2 & L2 & G2); [reflexivity|exact H|].
    exists w2. rewrite R. repeat split; auto. rewrite G2. cbn. rewrite <- app_assoc. reflexivity.
Qed.
Lemma farms_stat t xs : farms X (flat_map (fun x => [EOrd X lanczos_mat_vec_static; ETen X x; EFarm X FStat [t; x]]) xs) = map (fun x => (FStat, [t; x])) xs.
Proof. induction xs as [|i is IH]; auto. cbn [flat_map]. rewrite farms_app, IH. reflexivity. Qed.
Lemma dupdate_does dir l u : ddoes (BTop X) (BTop X) (dm_update X dir l u).
Proof.
  intros w C. unfold dm_update, dm_lanczos. rewrite drun_app.
  set (w1 := dgo X (dgo X w (BSite X)) (BDyn X)).
  assert (E1 : drun X w [EOrd X lanczos; ENum X l] = Ok w1) by (cbn [drun]; unfold dstep at 1; rewrite C; reflexivity).
  rewrite E1. cbn [bind]. rewrite <- app_assoc, drun_app.
  set (w2 := dlog X (dkeep X w1 (BOrd X) (d_terms X u)) (BOrd X) FDyn [d_terms X u; d_first X u]).
  assert (E2 : drun X w1 [EOrd X lanczos_mat_vec_dynamic; ENum X (d_num X u); ETen X (d_first X u); EFarm X FDyn [d_terms X u; d_first X u]] = Ok w2) by reflexivity.
  rewrite E2. cbn [bind]. rewrite <- app_assoc, drun_app.
  destruct (dstat_ok (d_terms X u) (d_more X u) w2 eq_refl eq_refl) as (w3 & R3 & C3 & O3 & L3 & G3). rewrite R3. cbn [bind].
  set (k := if dir then FGrowL else FGrowR).
  exists (dlog X w3 (BTop X) k [d_terms X u; d_mps X u]). split; [|split; [reflexivity|split; [cbn; rewrite L3; reflexivity|]]].
  - cbn [drun app]. unfold dstep at 1. rewrite C3. unfold k. destruct dir; cbn; unfold held; cbn; rewrite O3; reflexivity.
  - cbn [dw_log dlog]. rewrite G3, !farms_app, farms_stat. cbn. rewrite <- !app_assoc. reflexivity.
Qed.
Lemma dsweep_does lb rb d : ddoes (BTop X) (BTop X) (dm_sweep X lb rb d).
Proof. eapply ddoes_app; apply ddoes_flat; intros; apply dupdate_does. Qed.
Lemma dinit_does need lb num mps : ddoes (BInit X) (BTop X) (dm_init X N need lb num mps).
Proof.
  eapply ddoes_app with (c2 := BInit X).
  - destruct need; [|apply ddoes_nil]. apply ddoes_flat. intros i _ w C. exists (dlog X w (BInit X) FBlock [mps i]). split; [|repeat split]. cbn [drun]. unfold dstep at 1. rewrite C. reflexivity.
  - intros w C. exists (dgo X w (BTop X)). cbn. unfold dstep. rewrite C. cbn. rewrite app_nil_r. auto.
Qed.
Definition dfollows (t : list (event X)) : Prop :=
  exists w, drun X (dworker0 X) t = Ok w /\ dw_ctl X w = BDone X /\ dw_lost X w = 0 /\ dw_log X w = farms X t.
Lemma dmrg_follows need lb rb sweeps num mps d : dfollows (dm_run X N need lb rb sweeps num mps d).
Proof.
  unfold dfollows. assert (H : ddoes (BStart X) (BDone X) (dm_run X N need lb rb sweeps num mps d)).
  { unfold dm_run. eapply ddoes_app with (c2 := BInit X); [|eapply ddoes_app; [apply dinit_does|eapply ddoes_app; [apply ddoes_flat; intros; apply dsweep_does|]]].
    - intros w C. exists (dgo X w (BInit X)). cbn. unfold dstep. rewrite C. cbn. rewrite app_nil_r. auto.
    - intros w C. exists (dgo X w (BDone X)). cbn. unfold dstep. rewrite C. cbn. rewrite app_nil_r. auto. }
  destruct (H (dworker0 X) eq_refl) as (w & R & C & L & G). exists w. auto.
Qed.
Lemma dnot_before t t' w w' : drun X w (t ++ t') = Ok w' -> t' <> [] -> exists v, drun X w t = Ok v /\ dw_ctl X v <> BDone X.
Proof.
  rewrite drun_app. intros H HN. destruct (drun X w t) as [v| |]; try discriminate. exists v. split; auto. intros C. cbn in H.
  destruct t' as [|e t']; [congruence|]. cbn in H. unfold dstep in H. rewrite C in H. destruct e; discriminate.
Qed.
End P.
