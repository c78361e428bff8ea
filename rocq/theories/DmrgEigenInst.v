(** Three spins with H = X0 + X1 + X2 in the highest state |+++>, stored with squared norm 2. *)
From Coq Require Import List Arith Bool Lia Reals Lra Ring_theory.
From Verif Require Import Base Disk SweepSpec NoiseSpec Dmrg DmrgSpec FiniteMps FmpsSpec FmpsFacts EffHam EffHamSpec ChainSpec Cx DmrgUpdate DmrgStep DmrgVarSpec DmrgVar DmrgVarInst DmrgTruncSpec DmrgEigenSpec.
Import ListNotations.
Local Open Scope nat_scope.

Definition v_h : cx := cre (/ sqrt 2).
Definition v_ts (i : nat) : cten := mkTen 1 2 1 (fun _ _ _ => if i =? 0 then c1 else v_h).
Lemma v_hh : cadd (cmul v_h v_h) (cmul v_h v_h) = c1.
Proof.
  unfold v_h, cadd, cmul, cre, c1. cbn [fst snd]. assert (S : (sqrt 2 * sqrt 2 = 2)%R) by (apply sqrt_sqrt; lra). assert (P : (0 < sqrt 2)%R) by (apply sqrt_lt_R0; lra).
  f_equal; [|ring]. transitivity (2 * / (sqrt 2 * sqrt 2))%R; [field; lra|]. rewrite S. field.
Qed.
Lemma v_hc : cconj v_h = v_h.
Proof. unfold v_h, cconj, cre. cbn [fst snd]. f_equal. ring. Qed.
Lemma v_on : on_sites 3 [2; 2; 2] v_ts.
Proof. split; [cbn; auto|reflexivity]. Qed.
Lemma v_center : centered 3 0 v_ts.
Proof.
  split; [intros i Hi; lia|]. intros i Hi k k' Hk Hk'. cbn [v_ts d0 d1 d2 el] in *. replace k with 0 by lia. replace k' with 0 by lia. replace (i =? 0) with false by (symmetry; apply Nat.eqb_neq; lia).
  cbn [FmpsSpec.sumn]. unfold delta. cbn [Nat.eqb]. rewrite v_hc, <- v_hh. ring.
Qed.
Lemma v_coef : forall c, In c (configs [2; 2; 2]) -> coef 3 v_ts c = cmul v_h v_h.
Proof.
  intros c Ic. cbn in Ic. unfold coef. repeat (destruct Ic as [<-|Ic]; [cbn [sites map seq mps_mat FmpsSpec.sumn v_ts d2 el Nat.eqb]; unfold delta; cbn [Nat.eqb]; ring|]). destruct Ic.
Qed.
Lemma v_norm : norm2 cx c0 c1 cadd cmul cconj (sites 3 v_ts) = cre 2.
Proof.
  unfold norm2. change (map (@d1 cx) (sites 3 v_ts)) with [2; 2; 2]%nat.
  transitivity (lsum cx c0 cadd (configs [2; 2; 2]) (fun _ => cmul (cmul v_h v_h) (cmul v_h v_h))).
  { unfold lsum. assert (G : forall l, (forall c, In c l -> In c (configs [2; 2; 2])) -> fold_right (fun c s => cadd (cmul (cconj (mps_mat cx c0 c1 cadd cmul (sites 3 v_ts) c 0 0)) (mps_mat cx c0 c1 cadd cmul (sites 3 v_ts) c 0 0)) s) c0 l = fold_right (fun _ s => cadd (cmul (cmul v_h v_h) (cmul v_h v_h)) s) c0 l).
    { induction l as [|c l IH]; intros H; [reflexivity|]. cbn [fold_right]. rewrite IH by (intros; apply H; right; auto). pose proof (v_coef c (H c (or_introl eq_refl))) as E. unfold coef in E. rewrite E, cconj_mul, v_hc. reflexivity. }
    apply G. auto. }
  cbn [configs flat_map map seq app lsum fold_right]. transitivity (cmul (cadd c1 c1) (cmul (cadd (cmul v_h v_h) (cmul v_h v_h)) (cadd (cmul v_h v_h) (cmul v_h v_h)))); [ring|]. rewrite v_hh. unfold cmul, cadd, c1, cre. cbn [fst snd]. f_equal; ring.
Qed.
Lemma v_nz : nonzero 3 v_ts.
Proof. unfold nonzero. rewrite v_norm. unfold c0, cre. intros E. injection E as E. lra. Qed.
Lemma v_eigen : d_eigenstate 3 x_mpo [2; 2; 2] (coef 3 v_ts) 3.
Proof.
  intros c' Ic. rewrite (v_coef c' Ic).
  transitivity (lsum cx c0 cadd (configs [2; 2; 2]) (fun c => cmul (mpo_mat cx c0 c1 cadd cmul (sites 3 x_mpo) c c' 0 0) (cmul v_h v_h))).
  { assert (G : forall l, (forall c, In c l -> In c (configs [2; 2; 2])) -> lsum cx c0 cadd l (fun c => cmul (mpo_mat cx c0 c1 cadd cmul (sites 3 x_mpo) c c' 0 0) (coef 3 v_ts c)) = lsum cx c0 cadd l (fun c => cmul (mpo_mat cx c0 c1 cadd cmul (sites 3 x_mpo) c c' 0 0) (cmul v_h v_h))).
    { induction l as [|c l IH]; intros H; [reflexivity|]. unfold lsum in *. cbn [fold_right]. rewrite IH by (intros; apply H; right; auto). rewrite (v_coef c (H c (or_introl eq_refl))). reflexivity. }
    apply G. auto. }
  replace (cre 3) with (cadd c1 (cadd c1 c1)) by (unfold cadd, c1, cre; cbn [fst snd]; f_equal; ring).
  generalize (cmul v_h v_h). intros k. cbn in Ic.
  repeat (destruct Ic as [<-|Ic]; [cbn [configs flat_map map seq app lsum fold_right sites mpo_mat FmpsSpec.sumn x_mpo mrows mcols mval ent Nat.eqb Nat.ltb Nat.leb oI oX Nat.add]; unfold mval, oI, oX, delta; cbn [ent x_mpo Nat.eqb Nat.ltb Nat.leb Nat.add]; unfold oI, oX, delta; cbn [Nat.eqb Nat.add]; ring|]). destruct Ic.
Qed.
(** its files *)
Definition v_w : world cten unit (res real) := mkW _ _ _ 3 fnone 0 fnone fnone None None (fun i => Some (v_ts i)) fnone fnone false.
Definition v_d : dst cten cop (res real) := mkD _ _ _ v_w (fun _ => []) (fun _ => []) (fun _ _ _ => None) false false 0.
Definition v_ts0 : nat -> cten := snd (prep cten xright xleft (fun _ => false) x_small (fun _ => false) x_small xright xleft 3 v_ts).
Lemma v_ready : ready cten cop (res real) 3 (fun i => mcols (x_mpo i)) (fun _ _ _ => c1) (d_grow x_mpo) xright xleft (fun _ => false) x_small (fun _ => false) x_small xright xleft v_ts v_ts0 0 2 v_d.
Proof. split; [lia|]. split; [reflexivity|]. split; [reflexivity|]. split; [intros i _; reflexivity|]. split; [intros i _; reflexivity|]. intros H. discriminate. Qed.
(** the state with all spins up has energy 0 *)
Lemma v_lower : energy_of 3 x_mpo x_ts 0.
Proof.
  split; [exact x_norm|]. unfold EffHamSpec.energy. change (map (@d1 cx) (sites 3 x_ts)) with [2; 2; 2]%nat. change (cre 0) with c0.
  cbn [configs flat_map map seq app lsum fold_right sites mps_mat mpo_mat FmpsSpec.sumn x_ts x_mpo d2 el mrows mcols mval ent Nat.eqb Nat.ltb Nat.leb oI oX Nat.add]. unfold mval, oI, oX, delta. cbn [ent x_mpo Nat.eqb Nat.ltb Nat.leb Nat.add]. unfold oI, oX, delta. cbn [Nat.eqb Nat.add].
  assert (Z : forall x, cmul c0 x = c0) by (intros; ring). assert (Y : forall x, cmul x c0 = c0) by (intros; ring). assert (A : forall x, cadd c0 x = x) by (intros; ring). assert (B : forall x, cadd x c0 = x) by (intros; ring). assert (M : cmul c1 c1 = c1) by ring.
  repeat (rewrite ?Z, ?Y, ?A, ?B, ?M, ?cconj0, ?cconj1). reflexivity.
Qed.
