(** The transverse field Ising chain of three spins, from AddTerm to the runs: H = -Z0 Z1 - Z1 Z2 - h (X0 + X1 + X2). *)
From Coq Require Import List Arith Lia Bool Ring Reals Lra QArith Qreals.
From Verif Require Import Base Disk SweepSpec Dmrg DmrgSpec MpoGen MpoSpec MpoTen MpoTenSpec MpoTopSpec MpoRunSpec FiniteMps FmpsSpec EffHam EffHamSpec EffHamFacts ChainSpec Legs VmpsSpec Cx GVec CorrSpec
  DmrgStep ChainUpdate DmrgUpdate DmrgVarSpec DmrgVar DmrgVarInst ConserveSpec ConserveInst SingleVarInst EndSpec EndRun EndFloor.
Import ListNotations.
Local Open Scope nat_scope.

Definition s_eqb (x y : cx) : bool := if Req_EM_T (fst x) (fst y) then if Req_EM_T (snd x) (snd y) then true else false else false.
Lemma s_eqb_spec : forall x y, s_eqb x y = true <-> x = y.
Proof.
  intros [a b] [a' b']. unfold s_eqb. cbn [fst snd]. destruct (Req_EM_T a a'); [destruct (Req_EM_T b b')|]; split; intros E; try congruence; injection E; congruence.
Qed.
Definition s_id : lop cx := mkLop 0 [[c1; c0]; [c0; c1]].
Definition s_X : lop cx := mkLop 0 [[c0; c1]; [c1; c0]].
Definition s_Z : lop cx := mkLop 0 [[c1; c0]; [c0; copp c1]].
Definition s_phys : list nat := [0; 0; 0].
Definition s_ids : list (lop cx) := [s_id; s_id; s_id].
Definition s_pd (ix : nat) : nat := 2.
Definition s_none (x : cx) : bool := false.
Definition s_dv (o : lop cx) : unit := tt.
Definition s_qsub (a b : unit) : unit := tt.
Definition s_qeqb (a b : unit) : bool := true.
Definition s_blk (ix a b : nat) (d : unit) : Prop := True.
Definition s_calls (h : real) : list (acall cx) :=
  [ATwo cx (copp c1) s_Z 0 (Some s_Z) 1 None []; ATwo cx (copp c1) s_Z 1 (Some s_Z) 2 None [];
   ATerm cx (cre (- h)) [s_X] [0]; ATerm cx (cre (- h)) [s_X] [1]; ATerm cx (cre (- h)) [s_X] [2]].
Definition s_opl (l : list (lop cx)) (i : nat) : lop cx := nth i l (id_on cx s_ids i).
Definition s_ops : list (nat -> lop cx) := [s_opl [s_Z; s_Z; s_id]; s_opl [s_id; s_Z; s_Z]; s_opl [s_X; s_id; s_id]; s_opl [s_id; s_X; s_id]; s_opl [s_id; s_id; s_X]].

Lemma s_qeqb_spec : forall a b, s_qeqb a b = true <-> a = b. Proof. intros [] []. split; reflexivity. Qed.
Lemma s_qsub_self : forall a, s_qsub a a = tt. Proof. reflexivity. Qed.
Lemma s_qsub_cancel : forall a b d, s_qsub a d = s_qsub b d -> a = b. Proof. intros [] []. reflexivity. Qed.
Lemma s_dv_neg : forall o, s_dv (lop_neg cx copp o) = s_dv o. Proof. reflexivity. Qed.
Lemma s_good : good_ids cx s_pd unit s_qsub s_dv s_phys s_ids.
Proof. unfold good_ids, s_phys, s_ids. repeat constructor; intros []; reflexivity. Qed.
Lemma s_blocks : Forall (block_op cx c0 unit s_dv s_blk) s_ids.
Proof. repeat constructor. Qed.
Lemma s_square : forall o, o = s_id \/ o = s_X \/ o = s_Z -> MpoTopSpec.square cx s_pd o.
Proof. intros o [->|[->| ->]]; split; repeat constructor. Qed.
Lemma s_physical : forall a b c, (a = s_id \/ a = s_X \/ a = s_Z) -> (b = s_id \/ b = s_X \/ b = s_Z) -> (c = s_id \/ c = s_X \/ c = s_Z) ->
  physical cx c0 s_phys s_pd unit tt s_qsub s_dv s_blk (s_opl [a; b; c]).
Proof.
  intros a b c A B C. split; [|reflexivity]. intros i Hi. split; [|intros x y _; exact I]. destruct i as [|[|[|i]]]; cbn in Hi; [| | |lia]; cbn; apply s_square; assumption.
Qed.
Lemma s_beyond : forall l i, length l <= i -> s_opl l i = id_on cx s_ids i.
Proof. intros l i Hi. unfold s_opl. apply nth_overflow. lia. Qed.
Lemma s_one : forall k, k < 3 -> means_term cx s_phys s_ids [s_X] [k] (s_opl (match k with 0 => [s_X; s_id; s_id] | 1 => [s_id; s_X; s_id] | _ => [s_id; s_id; s_X] end)).
Proof.
  intros k Hk. split; [discriminate|]. split; [reflexivity|]. split; [repeat constructor; auto|]. split.
  - intros [|[|j]] o i E1 E2; cbn in E1, E2; try discriminate. injection E1 as <-. injection E2 as <-. destruct k as [|[|[|k]]]; try lia; split; reflexivity.
  - intros i Hi. destruct k as [|[|[|k]]]; try lia; destruct i as [|[|[|i]]]; try reflexivity; try (exfalso; apply Hi; left; reflexivity); apply s_beyond; cbn; lia.
Qed.
Lemma s_two : forall k, k < 2 -> means_term cx s_phys s_ids [s_Z; s_Z] [k; S k] (s_opl (match k with 0 => [s_Z; s_Z; s_id] | _ => [s_id; s_Z; s_Z] end)).
Proof.
  intros k Hk. split; [discriminate|]. split; [reflexivity|]. split; [constructor; [cbn; lia|repeat constructor; auto]|]. split.
  - intros [|[|[|j]]] o i E1 E2; cbn in E1, E2; try discriminate; injection E1 as <-; injection E2 as <-; destruct k as [|[|k]]; try lia; split; reflexivity.
  - intros i Hi. destruct k as [|[|k]]; try lia; destruct i as [|[|[|i]]]; try reflexivity; try (exfalso; apply Hi; cbn; auto; fail); apply s_beyond; cbn; lia.
Qed.
Lemma s_legal : forall h, legal cx c0 s_eqb s_none s_phys s_ids s_pd unit tt s_qsub s_dv s_blk (s_calls h) s_ops.
Proof.
  intros h. unfold legal, s_calls, s_ops. apply Forall2_cons; [|apply Forall2_cons; [|apply Forall2_cons; [|apply Forall2_cons; [|apply Forall2_cons; [|apply Forall2_nil]]]]];
    (split; [|intros _; apply s_physical; auto]).
  - split; [discriminate|apply (s_two 0 ltac:(lia))].
  - split; [discriminate|apply (s_two 1 ltac:(lia))].
  - apply (s_one 0 ltac:(lia)).
  - apply (s_one 1 ltac:(lia)).
  - apply (s_one 2 ltac:(lia)).
Qed.
Lemma s_minus : s_eqb (copp c1) c0 = false.
Proof. destruct (s_eqb (copp c1) c0) eqn:E; [|reflexivity]. apply s_eqb_spec in E. unfold copp, c1, c0 in E. cbn in E. injection E as E. lra. Qed.
Lemma s_counted : forall h, existsb (acounted cx c0 s_eqb s_none) (s_calls h) = true.
Proof. intros h. unfold s_calls. cbn [existsb]. unfold acounted at 1. cbn [acoef]. rewrite s_minus. reflexivity. Qed.
Lemma s_twice : forall isneg h, no_twice cx c0 copp s_eqb isneg (filter (acounted cx c0 s_eqb s_none) (s_calls h)).
Proof.
  intros isneg h j j' a a' o o' i Hj E1 E2 O1 O2. exfalso.
  assert (G : forall l, (forall k k' x x' y y' z, k < k' -> nth_error l k = Some x -> nth_error l k' = Some x' -> one_site cx x = Some (y, z) -> one_site cx x' = Some (y', z) -> False) ->
    forall f k k' x x' y y' z, k < k' -> nth_error (filter f l) k = Some x -> nth_error (filter f l) k' = Some x' -> one_site cx x = Some (y, z) -> one_site cx x' = Some (y', z) -> False).
  { induction l as [|u l IH]; intros N f k k' x x' y y' z Hk A B C D; [destruct k; discriminate|].
    assert (N' : forall k k' x x' y y' z, k < k' -> nth_error l k = Some x -> nth_error l k' = Some x' -> one_site cx x = Some (y, z) -> one_site cx x' = Some (y', z) -> False).
    { intros p p' ? ? ? ? ? Hp ? ? ? ?. eapply (N (S p) (S p')); eauto. lia. }
    cbn in A, B. destruct (f u) eqn:Eu; [|eapply (IH N'); eauto].
    destruct k' as [|k']; [lia|]. destruct k as [|k]; cbn in A, B; [|eapply (IH N') with (k := k) (k' := k'); eauto; lia].
    injection A as <-. apply nth_error_In in B. apply filter_In in B. destruct B as [B _]. apply In_nth_error in B. destruct B as [p B]. apply (N 0 (S p) u x' y y' z); auto; lia. }
  apply (G (s_calls h)) with (f := acounted cx c0 s_eqb s_none) (k := j) (k' := j') (x := a) (x' := a') (y := o) (y' := o') (z := i); auto.
  intros k k' x x' y y' z Hk A B C D. unfold s_calls in A, B.
  destruct k as [|[|[|[|[|k]]]]]; cbn in A; try (destruct k; discriminate); injection A as <-; cbn in C; try discriminate; injection C as <- <-;
    destruct k' as [|[|[|[|[|k']]]]]; try lia; cbn in B; try (destruct k'; discriminate); injection B as <-; cbn in D; discriminate.
Qed.
Lemma s_tail : forall isneg h, Forall (fun a => tail_neg cx c0 s_eqb isneg a = false) (filter (acounted cx c0 s_eqb s_none) (s_calls h)).
Proof. intros isneg h. apply Forall_forall. intros a I. apply filter_In in I. destruct I as [I _]. cbn in I. destruct I as [<-|[<-|[<-|[<-|[<-|[]]]]]]; reflexivity. Qed.
Lemma s_herm_op : forall o, o = s_id \/ o = s_X \/ o = s_Z -> forall s s', elem c0 o s s' = cconj (elem c0 o s' s).
Proof.
  assert (O : cconj (copp c1) = copp c1) by (unfold cconj, copp, c1; cbn; f_equal; lra).
  intros o [->|[->| ->]] [|[|s]] [|[|s']]; unfold elem; try (destruct s); try (destruct s'); cbn [s_id s_X s_Z lo_dat nth]; rewrite ?cconj0, ?cconj1, ?O; reflexivity.
Qed.
Lemma s_hermitian : forall h, hermitian [2; 2; 2] (sum_of_terms s_eqb s_none s_phys (s_calls h) s_ops).
Proof.
  intros h. apply (herm_terms s_eqb s_none s_pd s_phys).
  assert (O : cconj (copp c1) = copp c1) by (unfold cconj, copp, c1; cbn; f_equal; lra).
  assert (O' : cconj (cre (- h)) = cre (- h)) by (unfold cconj, cre; cbn; f_equal; lra).
  unfold s_calls, s_ops. repeat constructor; try exact O; try exact O'; intros [|[|[|i]]] Hi; cbn in Hi; try lia; cbn [s_opl nth]; apply s_herm_op; auto.
Qed.

(** *** the states of the runs *)
Lemma s_mps : forall v, mps_on 3 [2; 2; 2] (y_gen v).
Proof. intros v. split; [intros i _; repeat eexists|]. split; [cbn; auto|reflexivity]. Qed.
Lemma s_mps_acted : mps_on 3 [2; 2; 2] y_ta.
Proof. split; [intros [|[|[|i]]] Hi; try lia; repeat eexists|]. split; [cbn; auto|reflexivity]. Qed.
Lemma s_norm : forall ts, mps_on 3 [2; 2; 2] ts -> sq_norm 3 ts <> c0 -> norm_sq [2; 2; 2] (amp 3 ts) <> c0.
Proof. intros ts A B E. apply B. rewrite <- E. exact (norm_of s_pd s_phys ts A). Qed.
(** without a call whose coefficient counts as zero *)
Lemma s_term : forall a op s s', s_none (acoef cx a) = false ->
  (if acounted cx c0 s_eqb s_none a then prod_elem cx c0 c1 cmul s_phys (acoef cx a) op s s' else c0) = prod_elem cx c0 c1 cmul s_phys (acoef cx a) op s s'.
Proof.
  intros a op s s' _. unfold acounted. destruct (s_eqb (acoef cx a) c0) eqn:E; [|reflexivity]. apply s_eqb_spec in E. rewrite E. cbn [negb andb]. unfold prod_elem. symmetry. ring.
Qed.
(** every spin in the state v *)
Section Prod.
Variables (h : real) (v : nat -> cx).
Notation n := (cadd (cmul (cconj (v 0)) (v 0)) (cmul (cconj (v 1)) (v 1))).
Notation x := (cadd (cmul (cconj (v 0)) (v 1)) (cmul (cconj (v 1)) (v 0))).
Notation z := (cadd (cmul (cconj (v 0)) (v 0)) (copp (cmul (cconj (v 1)) (v 1)))).
Lemma s_energy_gen : expectation [2; 2; 2] (sum_of_terms s_eqb s_none s_phys (s_calls h) s_ops) (amp 3 (y_gen v)) =
  cadd (copp (cmul (cadd (cmul z z) (cmul z z)) n)) (cmul (cre (- h)) (cmul (cadd (cadd x x) x) (cmul n n))).
Proof.
  unfold expectation, sum_of_terms, s_calls, s_ops. cbn [total]. 
  rewrite (lsum_ext cx c0 cadd (configs [2; 2; 2]) _ (fun c' => lsum cx c0 cadd (configs [2; 2; 2]) (fun c => cmul (cmul (cconj (amp 3 (y_gen v) c'))
    (cadd (prod_elem cx c0 c1 cmul s_phys (copp c1) (s_opl [s_Z; s_Z; s_id]) (fun i => nth i c 0) (fun i => nth i c' 0)) (cadd (prod_elem cx c0 c1 cmul s_phys (copp c1) (s_opl [s_id; s_Z; s_Z]) (fun i => nth i c 0) (fun i => nth i c' 0))
    (cadd (prod_elem cx c0 c1 cmul s_phys (cre (- h)) (s_opl [s_X; s_id; s_id]) (fun i => nth i c 0) (fun i => nth i c' 0)) (cadd (prod_elem cx c0 c1 cmul s_phys (cre (- h)) (s_opl [s_id; s_X; s_id]) (fun i => nth i c 0) (fun i => nth i c' 0))
    (cadd (prod_elem cx c0 c1 cmul s_phys (cre (- h)) (s_opl [s_id; s_id; s_X]) (fun i => nth i c 0) (fun i => nth i c' 0)) c0)))))) (amp 3 (y_gen v) c)))).
  2:{ intros c' _. apply lsum_ext. intros c _. rewrite !s_term by reflexivity. reflexivity. }
  unfold prod_elem, elem, s_opl, amp, s_phys, s_Z, s_X, s_id. generalize (cre (- h)). intros g.
  cbn -[cadd cmul cconj c0 c1 copp cre]. repeat (rewrite ?cconj_mul, ?cconj_add, ?cconj0, ?cconj1). ring.
Qed.
End Prod.
Lemma s_energy : forall h, state_of_energy [2; 2; 2] (sum_of_terms s_eqb s_none s_phys (s_calls h) s_ops) (amp 3 y_ts) (- (98 / 625) - 72 / 25 * h).
Proof.
  intros h. split; [rewrite <- (proj1 y_norms); symmetry; exact (norm_of s_pd s_phys y_ts (s_mps _))|].
  unfold y_ts. rewrite s_energy_gen, y_n. unfold y_vec. cbn [Nat.eqb]. unfold c1, cadd, cmul, cconj, cre, copp. cbn [fst snd]. f_equal; field.
Qed.
Lemma mean_of : forall ds H psi e, state_of_energy ds H psi e -> mean ds H psi = e.
Proof. intros ds H psi e [A B]. unfold mean. rewrite A, B. cbn. field. Qed.
(** without a field the state of all spins up has the energy -2 *)
Definition s_up (s : nat) : cx := if s =? 0 then c1 else c0.
Lemma s_eigen : eigenvector [2; 2; 2] (sum_of_terms s_eqb s_none s_phys (s_calls 0) s_ops) (amp 3 (y_gen s_up)) (- 2).
Proof.
  assert (Z : s_eqb (cre (- 0)) c0 = true) by (apply s_eqb_spec; unfold cre, c0; f_equal; lra).
  intros c' I'. unfold sum_of_terms, s_calls, s_ops. cbn [total]. unfold acounted. cbn [acoef]. rewrite Z, s_minus. cbn [negb andb s_none]. unfold prod_elem, elem, s_opl, amp, s_phys, s_Z, s_X, s_id, s_up.
  assert (E2 : cre (- 2) = cadd (copp c1) (copp c1)) by (unfold cre, cadd, copp, c1; cbn; f_equal; lra). rewrite E2.
  cbn in I'. destruct I' as [<-|[<-|[<-|[<-|[<-|[<-|[<-|[<-|[]]]]]]]]]; cbn -[cadd cmul cconj c0 c1 copp cre]; ring.
Qed.
Lemma s_up_right : forall i, cright (cten_of (y_gen s_up i)).
Proof. intros i k k' Hk Hk'. cbn [y_gen Legs.ten_of gd nth d0 d1 d2 el] in *. replace k with 0 by lia. replace k' with 0 by lia. cbn -[cadd cmul cconj c0 c1]. rewrite cconj1, cconj0. unfold delta. cbn [Nat.eqb]. ring. Qed.
Lemma s_up_mixed : mixed_at 3 0 (y_gen s_up).
Proof. split; intros i Hi; [lia|apply s_up_right]. Qed.
Lemma s_up_nz : norm_sq [2; 2; 2] (amp 3 (y_gen s_up)) <> c0.
Proof.
  apply s_norm; [apply s_mps|]. rewrite y_norm_gen. unfold s_up. cbn [Nat.eqb]. rewrite cconj1, cconj0. intros E.
  assert (X : c1 = c0) by (rewrite <- E; ring). unfold c1, c0 in X. injection X as X. lra.
Qed.
(** no state is below -(2 + 3|h|) *)
Lemma s_contraction : forall o, o = s_id \/ o = s_X \/ o = s_Z -> contraction 2 o.
Proof.
  assert (M : cabs (copp c1) = 1%R) by (unfold cabs, copp, c1; cbn [fst snd]; replace (- (1) * - (1) + - (0) * - (0))%R with 1%R by ring; apply sqrt_1).
  intros o [->|[->| ->]]; split; intros [|[|s]] Hs; try lia; cbn -[cabs c0 c1 copp]; unfold elem; cbn -[cabs c0 c1 copp]; rewrite ?cabs0, ?cabs1, ?M; lra.
Qed.
Lemma s_floor : forall h, at_least [2; 2; 2] (sum_of_terms s_eqb s_none s_phys (s_calls h) s_ops) (- (2 + 3 * Rabs h)).
Proof.
  intros h psi. pose proof (floor s_eqb s_none s_pd s_phys (s_calls h) s_ops) as F.
  assert (C : (coef_sum s_eqb s_none (s_calls h) <= 2 + 3 * Rabs h)%R).
  { assert (M : cabs (copp c1) = 1%R) by (unfold cabs, copp, c1; cbn [fst snd]; replace (- (1) * - (1) + - (0) * - (0))%R with 1%R by ring; apply sqrt_1).
    assert (M' : cabs (cre (- h)) = Rabs h) by (unfold cabs, cre; cbn [fst snd]; replace (- h * - h + 0 * 0)%R with (Rsqr h) by (unfold Rsqr; ring); apply sqrt_Rsqr_abs).
    pose proof (Rabs_pos h). unfold coef_sum, s_calls, acounted. cbn [filter acoef]. rewrite s_minus. cbn [negb andb s_none]. destruct (s_eqb (cre (- h)) c0); cbn [negb andb s_none rsum acoef]; rewrite ?M, ?M'; lra. }
  assert (P : forall d, (0 <= fst (norm_sq d psi))%R).
  { intros d. unfold norm_sq. rewrite fst_lsum. apply rsum_pos. intros c _. unfold cmul, cconj. cbn [fst snd]. nra. }
  eapply Rle_trans; [|refine (F _ psi)].
  2:{ unfold s_calls, s_ops. do 5 (apply Forall2_cons; [intros _ [|[|[|i]]] ix E; cbn in E; try (destruct i; discriminate); apply s_contraction; cbn; auto|]). apply Forall2_nil. }
  apply Rmult_le_compat_r; [apply P|lra].
Qed.
(** DMRG *)
Lemma s_ready : forall ws, ready cten cop (res real) 3 (fun i => mcols (ws i)) (fun _ _ _ => c1) (d_grow ws) xright xleft (fun _ => false) x_small (fun _ => false) x_small xright xleft x_ts x_ts0 0 2 x_d.
Proof.
  intros ws. split; [lia|]. split; [reflexivity|]. split; [reflexivity|]. split; [intros i _; reflexivity|]. split; [intros i _; reflexivity|]. intros H. discriminate.
Qed.
Lemma s_damp : norm_sq [2; 2; 2] (damp 3 x_ts) <> c0.
Proof. intros E. apply (normalized_nz 3 x_ts x_norm). transitivity (norm_sq [2; 2; 2] (damp 3 x_ts)); [exact (d_norm_of s_pd s_phys x_ts x_on)|exact E]. Qed.
