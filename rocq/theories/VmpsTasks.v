(** The VMPS steps divided into tasks give the results of the serial steps. *)
From Coq Require Import List Arith Lia Bool Ring Permutation.
From Verif Require Import Base FiniteMps FmpsSpec FmpsFacts EffHam EffHamSpec EffHamFacts FinMpo FinMpoSpec Legs VmpsLocal VmpsSpec VmpsEnv VmpsHeff VmpsShift VmpsState.
Import ListNotations.

Section Facts.
Variables (R : Type) (r0 r1 : R) (radd rmul rsub : R -> R -> R) (ropp : R -> R).
Variable Rth : ring_theory r0 r1 radd rmul rsub ropp (@eq R).
Variable conj : R -> R.
Hypothesis conj0 : conj r0 = r0.
Hypothesis conj1 : conj r1 = r1.
Hypothesis conj_add : forall x y, conj (radd x y) = radd (conj x) (conj y).
Hypothesis conj_mul : forall x y, conj (rmul x y) = rmul (conj x) (conj y).
Add Ring Rring : Rth.
Infix "+r" := radd (at level 50, left associativity).
Infix "*r" := rmul (at level 40, left associativity).
Notation gten := (gten R). Notation mkG := (mkG R). Notation ge := (ge R). Notation gd := (gd R).
Notation sumn := (sumn R r0 radd). Notation lsum := (lsum R r0 radd).
Notation ten_of := (ten_of R). Notation site_of := (site_of R).
Notation mps_mat := (mps_mat R r0 r1 radd rmul). Notation mpo_mat := (mpo_mat R r0 r1 radd rmul).
Notation left_block := (left_block R r0 r1 radd rmul conj). Notation right_block := (right_block R r0 r1 radd rmul conj).
Notation lsum_ext := (lsum_ext R r0 radd). Notation lsum_swap := (lsum_swap R r0 r1 radd rmul rsub ropp Rth).
Notation lsum_mul_l := (lsum_mul_l R r0 r1 radd rmul rsub ropp Rth). Notation lsum_mul_r := (lsum_mul_r R r0 r1 radd rmul rsub ropp Rth).
Notation sumn_lsum := (sumn_lsum R r0 r1 radd rmul rsub ropp Rth).
Notation pull2 := (pull2 R r0 r1 radd rmul rsub ropp Rth). Notation pull3 := (pull3 R r0 r1 radd rmul rsub ropp Rth).
Notation part := (part R).


Ltac to_lsum := match goal with |- ?l = _ => match l with context [FmpsSpec.sumn R r0 radd ?n ?f] => rewrite (sumn_lsum n f) end end.
Ltac flat' := repeat (first [to_lsum | rewrite lsum_mul_l | rewrite lsum_mul_r | (eapply lsum_ext; intros ? ?)]); reflexivity.
Notation sectors := VmpsSpec.sectors.
Notation s_ext := (s_ext R r0 r1 radd rmul rsub ropp Rth). Notation l_0 := (lsum_0 R r0 r1 radd rmul rsub ropp Rth).
Lemma s_0 : forall n f, (forall i, i < n -> f i = r0) -> sumn n f = r0.
Proof. intros n f H. rewrite sumn_lsum. apply l_0. intros i Hi. apply in_seq in Hi. apply H. lia. Qed.

(** *** the sectors of a leg cover it once *)
Lemma sectors_cover : forall degs lo k v, lo <= k -> k < lo + fold_right Nat.add 0 degs -> lsum (sectors lo degs) (fun t => if in_range k (fst t) (snd t) then v else r0) = v.
Proof.
  induction degs as [|n degs IH]; intros lo k v H1 H2; cbn [fold_right] in H2; [lia|]. cbn [VmpsSpec.sectors EffHamSpec.lsum fold_right fst snd].
  destruct (in_range k lo n) eqn:E.
  - replace (fold_right _ _ _) with r0; [ring|]. symmetry. apply l_0. intros [lo' m] Hin. cbn [fst snd].
    assert (L : forall degs lo, In (lo', m) (sectors lo degs) -> lo <= lo').
    { induction degs0 as [|n0 degs0 IH0]; intros lo0 H; [destruct H|]. destruct H as [H|H]; [injection H; lia|]. apply IH0 in H. lia. }
    apply L in Hin. unfold in_range in *. apply andb_true_iff in E. destruct E as [_ E]. apply Nat.ltb_lt in E. replace (lo' <=? k) with false; [auto|]. symmetry. apply Nat.leb_gt. lia.
  - unfold in_range in E. apply andb_false_iff in E. destruct E as [E|E]; [apply Nat.leb_gt in E; lia|]. apply Nat.ltb_ge in E.
    etransitivity; [|apply (IH (lo + n) k v); lia]. unfold EffHamSpec.lsum. ring.
Qed.
Lemma lsum_perm : forall A (l l' : list A) f, Permutation l l' -> lsum l f = lsum l' f.
Proof. intros A l l' f H. induction H as [|x l l' H IH|x y l|l l' l'' H1 IH1 H2 IH2]; [reflexivity| | |congruence]; unfold EffHamSpec.lsum in *; cbn [fold_right]; [rewrite IH; reflexivity|ring]. Qed.
Lemma cover : forall degs d tasks k v, fold_right Nat.add 0 degs = d -> Permutation tasks (sectors 0 degs) -> k < d -> lsum tasks (fun t => if in_range k (fst t) (snd t) then v else r0) = v.
Proof. intros degs d tasks k v <- HP Hk. rewrite (lsum_perm _ _ _ _ HP). apply sectors_cover; lia. Qed.

(** *** one task *)
Lemma slave_lenv_el : forall (e t w e' : gten) lo n D M p D' M', gd e = [D; M; D] -> gd t = [D; p; D'] -> gd w = [M; p; p; M'] -> update_lenv R r0 radd rmul conj e t w = Ok e' ->
  exists e1, slave_lenv R r0 radd rmul conj e t w (lo, n) = Ok e1 /\ forall a' j a, ge e1 [a'; j; a] = if in_range a lo n then ge e' [a'; j; a] else r0.
Proof.
  intros e t w e' lo n D M p D' M' He Ht Hw HU. destruct (update_lenv_el R r0 radd rmul conj e t w D M p D' M' He Ht Hw) as [e2 [U1 [_ U2]]]. rewrite U1 in HU. injection HU as <-.
  assert (P : exists e1, slave_lenv R r0 radd rmul conj e t w (lo, n) = Ok e1 /\ forall a' j a, ge e1 [a'; j; a] =
    sumn D (fun l' => sumn p (fun s' => conj (ge t [l'; s'; a']) *r sumn M (fun i => sumn p (fun s => sumn D (fun l => (if in_range a lo n then ge t [l; s; a] else r0) *r ge e [l'; i; l]) *r ge w [i; s; s'; j]))))).
  { clear U1 U2. destruct e as [de e], t as [dt t], w as [dw w]. cbn in He, Ht, Hw. subst de dt dw. eexists. split; [legs; reflexivity|]. intros. legs. reflexivity. }
  destruct P as [e1 [P1 P2]]. exists e1. split; [exact P1|]. intros a' j a. rewrite P2. destruct (in_range a lo n).
  - rewrite U2. apply s_ext; intros l' _. apply s_ext; intros s' _. f_equal. apply s_ext; intros i _. apply s_ext; intros s _. f_equal. apply s_ext; intros l _. ring.
  - apply s_0; intros l' _. apply s_0; intros s' _. rewrite (s_0 M); [ring|]. intros i _. apply s_0; intros s _. rewrite (s_0 D); [ring|]. intros; ring.
Qed.
Lemma slave_renv_el : forall (e t w e' : gten) lo n D M p D' M', gd e = [D; M; D] -> gd t = [D'; p; D] -> gd w = [M'; p; p; M] -> update_renv R r0 radd rmul conj e t w = Ok e' ->
  exists e1, slave_renv R r0 radd rmul conj e t w (lo, n) = Ok e1 /\ forall a' j a, ge e1 [a'; j; a] = if in_range a' lo n then ge e' [a'; j; a] else r0.
Proof.
  intros e t w e' lo n D M p D' M' He Ht Hw HU. destruct (update_renv_el R r0 radd rmul conj e t w D M p D' M' He Ht Hw) as [e2 [U1 [_ U2]]]. rewrite U1 in HU. injection HU as <-.
  assert (P : exists e1, slave_renv R r0 radd rmul conj e t w (lo, n) = Ok e1 /\ forall a' j a, ge e1 [a'; j; a] =
    sumn p (fun s => sumn D (fun b => sumn p (fun s' => sumn M (fun k => sumn D (fun b' => (if in_range a' lo n then conj (ge t [a'; s'; b']) else r0) *r ge e [b'; k; b]) *r ge w [j; s; s'; k])) *r ge t [a; s; b]))).
  { clear U1 U2. destruct e as [de e], t as [dt t], w as [dw w]. cbn in He, Ht, Hw. subst de dt dw. eexists. split; [legs; reflexivity|]. intros. legs. reflexivity. }
  destruct P as [e1 [P1 P2]]. exists e1. split; [exact P1|]. intros a' j a. rewrite P2. destruct (in_range a' lo n).
  - rewrite U2. reflexivity.
  - apply s_0; intros s _. apply s_0; intros b _. rewrite (s_0 p); [ring|]. intros s' _. apply s_0; intros k _. rewrite (s_0 D); [ring|]. intros; ring.
Qed.
Lemma slave_mul2_el : forall (h0 h1 h2 h3 x y : gten) lo n D0 M0 p1 M1 p2 M2 D3, gd h0 = [D0; M0; D0] -> gd h1 = [M0; p1; p1; M1] -> gd h2 = [M1; p2; p2; M2] -> gd h3 = [D3; M2; D3] -> gd x = [D0; p1; p2; D3] ->
  mul2 R r0 radd rmul h0 h1 h2 h3 x = Ok y ->
  exists y1, slave_mul2 R r0 radd rmul conj h0 h1 h2 h3 x (lo, n) =
    Ok (y1, sumn D0 (fun a => sumn p1 (fun s => sumn p2 (fun t => sumn D3 (fun b => (if in_range a lo n then ge y [a; s; t; b] else r0) *r conj (ge x [a; s; t; b])))))) /\
  forall a s t b, ge y1 [a; s; t; b] = if in_range a lo n then ge y [a; s; t; b] else r0.
Proof.
  intros h0 h1 h2 h3 x y lo n D0 M0 p1 M1 p2 M2 D3 E0 E1 E2 E3 E4 HY.
  destruct (mul2_el R r0 radd rmul h0 h1 h2 h3 x D0 M0 p1 M1 p2 M2 D3 E0 E1 E2 E3 E4) as [y' [Y1 [_ Y2]]]. rewrite Y1 in HY. injection HY as <-.
  assert (P : exists y1, (let! e := gcontract R r0 radd rmul [2] [0] (gonly R r0 0 (fst (lo, n)) (snd (lo, n)) h0) x in
      let! res := gcontract1 R r0 radd rmul 1 0 2 e h1 in let! temp1 := gcontract1 R r0 radd rmul 4 0 2 res h2 in gcontract1 R r0 radd rmul 4 1 2 temp1 h3) = Ok y1 /\ gd y1 = [D0; p1; p2; D3] /\
    forall a' s1' s2' b', ge y1 [a'; s1'; s2'; b'] =
    sumn M2 (fun k => sumn D3 (fun b => sumn M1 (fun j => sumn p2 (fun s2 => sumn M0 (fun i => sumn p1 (fun s1 =>
      sumn D0 (fun a => (if in_range a' lo n then ge h0 [a'; i; a] else r0) *r ge x [a; s1; s2; b]) *r ge h1 [i; s1; s1'; j])) *r ge h2 [j; s2; s2'; k])) *r ge h3 [b'; k; b]))).
  { clear Y1 Y2. destruct h0 as [? h0], h1 as [? h1], h2 as [? h2], h3 as [? h3], x as [? x]. cbn in E0, E1, E2, E3, E4. subst. eexists. split; [legs; reflexivity|]. split; [reflexivity|]. intros. legs. reflexivity. }
  destruct P as [y1 [P1 [P2 P3]]].
  assert (PE : forall a s t b, ge y1 [a; s; t; b] = if in_range a lo n then ge y' [a; s; t; b] else r0).
  { intros a s t b. rewrite P3. destruct (in_range a lo n); [rewrite Y2; reflexivity|].
    apply s_0; intros k _. apply s_0; intros b0 _. rewrite (s_0 M1); [ring|]. intros j _. apply s_0; intros s2 _. rewrite (s_0 M0); [ring|]. intros i _. apply s_0; intros s1 _. rewrite (s_0 D0); [ring|]. intros; ring. }
  exists y1. split; [|exact PE]. unfold slave_mul2.
  destruct (gcontract R r0 radd rmul [2] [0] (gonly R r0 0 (fst (lo, n)) (snd (lo, n)) h0) x) as [e| |]; cbn [bind] in P1 |- *; try discriminate.
  destruct (gcontract1 R r0 radd rmul 1 0 2 e h1) as [r2| |]; cbn [bind] in P1 |- *; try discriminate.
  destruct (gcontract1 R r0 radd rmul 4 0 2 r2 h2) as [r3| |]; cbn [bind] in P1 |- *; try discriminate.
  rewrite P1. cbn [bind].
  assert (Q : (let! v := gcontract R r0 radd rmul [0; 1; 2; 3] [0; 1; 2; 3] y1 (gdag R conj x) in gscalar R v) =
    Ok (sumn D0 (fun a => sumn p1 (fun s => sumn p2 (fun t => sumn D3 (fun b => ge y1 [a; s; t; b] *r conj (ge x [a; s; t; b]))))))).
  { clear - P2 E4. destruct y1 as [? y1], x as [? x]. cbn in P2, E4. subst. legs. reflexivity. }
  destruct (gcontract R r0 radd rmul [0; 1; 2; 3] [0; 1; 2; 3] y1 (gdag R conj x)) as [v| |]; cbn [bind] in Q |- *; try discriminate. rewrite Q. cbn [bind]. f_equal. f_equal.
  apply s_ext; intros a _. apply s_ext; intros s _. apply s_ext; intros t _. apply s_ext; intros b _. rewrite PE. reflexivity.
Qed.

(** *** all tasks *)
Lemma collect_el : forall dims rs k x, ge (collect R r0 radd dims rs k) x = lsum rs (fun t => ge t x).
Proof.
  intros dims rs k x. unfold collect. cbn [Legs.ge]. induction rs as [|r rs IH]; cbn [app fold_right EffHamSpec.lsum].
  - induction k as [|k IH]; cbn [repeat fold_right]; [auto|]. rewrite IH. cbn. ring.
  - rewrite IH. reflexivity.
Qed.
Lemma mapM_tasks : forall (f : nat * nat -> res gten) (G : nat * nat -> list nat -> R) (ok : list nat -> Prop) tasks,
  (forall t, exists y, f t = Ok y /\ forall x, ok x -> ge y x = G t x) -> exists ys, mapM f tasks = Ok ys /\ forall x, ok x -> lsum ys (fun y => ge y x) = lsum tasks (fun t => G t x).
Proof.
  intros f G ok tasks H. induction tasks as [|t tasks IH]; [exists []; split; reflexivity|].
  destruct (H t) as [y [Y1 Y2]]. destruct IH as [ys [I1 I2]]. exists (y :: ys). cbn [mapM]. rewrite Y1. cbn [bind]. rewrite I1. cbn [bind]. split; [reflexivity|].
  intros x Hx. cbn. rewrite Y2 by auto. specialize (I2 x Hx). unfold EffHamSpec.lsum in I2. rewrite I2. reflexivity.
Qed.
Lemma mpi_lenv_ok : forall (e t w : gten) degs tasks D M p D' M', gd e = [D; M; D] -> gd t = [D; p; D'] -> gd w = [M; p; p; M'] ->
  fold_right Nat.add 0 degs = D' -> Permutation tasks (sectors 0 degs) ->
  exists e' e1, update_lenv R r0 radd rmul conj e t w = Ok e' /\ mpi_lenv R r0 radd rmul conj e t w tasks = Ok e1 /\ gd e1 = gd e' /\ forall a' j a, a < D' -> ge e1 [a'; j; a] = ge e' [a'; j; a].
Proof.
  intros e t w degs tasks D M p D' M' He Ht Hw HD HP. destruct (update_lenv_el R r0 radd rmul conj e t w D M p D' M' He Ht Hw) as [e' [U1 [U2 _]]].
  destruct (mapM_tasks (slave_lenv R r0 radd rmul conj e t w) (fun k x => if in_range (nth 2 x 0) (fst k) (snd k) then ge e' x else r0) (fun x => exists a' j a, x = [a'; j; a]) tasks) as [ys [M1 M2]].
  { intros [lo n]. destruct (slave_lenv_el e t w e' lo n D M p D' M' He Ht Hw U1) as [e1 [S1 S2]]. exists e1. split; [exact S1|]. intros x [a' [j [a ->]]]. apply S2. }
  exists e'. eexists. split; [exact U1|]. unfold mpi_lenv. rewrite M1. cbn [bind]. split; [reflexivity|]. split; [rewrite U2; cbn [Legs.gd collect]; rewrite Ht, Hw; reflexivity|].
  intros a' j a Ha. rewrite collect_el, M2 by eauto. apply (cover degs D'); auto.
Qed.
Lemma mpi_renv_ok : forall (e t w : gten) degs tasks D M p D' M', gd e = [D; M; D] -> gd t = [D'; p; D] -> gd w = [M'; p; p; M] ->
  fold_right Nat.add 0 degs = D' -> Permutation tasks (sectors 0 degs) ->
  exists e' e1, update_renv R r0 radd rmul conj e t w = Ok e' /\ mpi_renv R r0 radd rmul conj e t w tasks = Ok e1 /\ gd e1 = gd e' /\ forall a' j a, a' < D' -> ge e1 [a'; j; a] = ge e' [a'; j; a].
Proof.
  intros e t w degs tasks D M p D' M' He Ht Hw HD HP. destruct (update_renv_el R r0 radd rmul conj e t w D M p D' M' He Ht Hw) as [e' [U1 [U2 _]]].
  destruct (mapM_tasks (slave_renv R r0 radd rmul conj e t w) (fun k x => if in_range (nth 0 x 0) (fst k) (snd k) then ge e' x else r0) (fun x => exists a' j a, x = [a'; j; a]) tasks) as [ys [M1 M2]].
  { intros [lo n]. destruct (slave_renv_el e t w e' lo n D M p D' M' He Ht Hw U1) as [e1 [S1 S2]]. exists e1. split; [exact S1|]. intros x [a' [j [a ->]]]. apply S2. }
  exists e'. eexists. split; [exact U1|]. unfold mpi_renv. rewrite M1. cbn [bind]. split; [reflexivity|]. split; [rewrite U2; cbn [Legs.gd collect]; rewrite Ht, Hw; reflexivity|].
  intros a' j a Ha. rewrite collect_el, M2 by eauto. apply (cover degs D'); auto.
Qed.
Variable re : R -> R.
Hypothesis re0 : re r0 = r0.
Hypothesis re_add : forall x y, re (x +r y) = re x +r re y.
Lemma re_lsum : forall A (l : list A) f, re (lsum l f) = lsum l (fun x => re (f x)).
Proof. intros A l f. induction l as [|x l IH]; cbn; [auto|]. rewrite re_add. f_equal. exact IH. Qed.
Lemma lsum_concat : forall A (ls : list (list A)) f, lsum (concat ls) f = lsum ls (fun l => lsum l f).
Proof. intros A ls f. induction ls as [|l ls IH]; [auto|]. cbn [concat]. rewrite (lsum_app R r0 r1 radd rmul rsub ropp Rth), IH. reflexivity. Qed.
Lemma mpi_mul2_ok : forall (h0 h1 h2 h3 x : gten) degs jobs arrived k D0 M0 p1 M1 p2 M2 D3, gd h0 = [D0; M0; D0] -> gd h1 = [M0; p1; p1; M1] -> gd h2 = [M1; p2; p2; M2] -> gd h3 = [D3; M2; D3] -> gd x = [D0; p1; p2; D3] ->
  fold_right Nat.add 0 degs = D0 -> Permutation arrived (sectors 0 degs) -> Permutation (concat jobs) (sectors 0 degs) ->
  exists y y1 v, mul2 R r0 radd rmul h0 h1 h2 h3 x = Ok y /\ mpi_mul2 R r0 radd rmul conj re h0 h1 h2 h3 x jobs arrived k = Ok (y1, v) /\ gd y1 = gd y /\
  (forall a s t b, a < D0 -> ge y1 [a; s; t; b] = ge y [a; s; t; b]) /\
  v = re (sumn D0 (fun a => sumn p1 (fun s => sumn p2 (fun t => sumn D3 (fun b => ge y [a; s; t; b] *r conj (ge x [a; s; t; b])))))).
Proof.
  intros h0 h1 h2 h3 x degs jobs arrived k D0 M0 p1 M1 p2 M2 D3 E0 E1 E2 E3 E4 HD HA HJ.
  destruct (mul2_el R r0 radd rmul h0 h1 h2 h3 x D0 M0 p1 M1 p2 M2 D3 E0 E1 E2 E3 E4) as [y [Y1 [Y2 _]]].
  set (V := fun t : nat * nat => sumn D0 (fun a => sumn p1 (fun s => sumn p2 (fun t0 => sumn D3 (fun b => (if in_range a (fst t) (snd t) then ge y [a; s; t0; b] else r0) *r conj (ge x [a; s; t0; b])))))).
  destruct (mapM_tasks (fun t => let! rv := slave_mul2 R r0 radd rmul conj h0 h1 h2 h3 x t in Ok (fst rv)) (fun t z => if in_range (nth 0 z 0) (fst t) (snd t) then ge y z else r0) (fun z => exists a s t b, z = [a; s; t; b]) arrived) as [ys [P1 P2]].
  { intros [lo n]. destruct (slave_mul2_el h0 h1 h2 h3 x y lo n D0 M0 p1 M1 p2 M2 D3 E0 E1 E2 E3 E4 Y1) as [y1 [S1 S2]]. exists y1. rewrite S1. split; [reflexivity|]. intros z [a [s [t [b ->]]]]. apply S2. }
  assert (W : forall ts acc, for_each ts (fun t acc => let! rv := slave_mul2 R r0 radd rmul conj h0 h1 h2 h3 x t in Ok (acc +r re (snd rv))) acc = Ok (acc +r lsum ts (fun t => re (V t)))).
  { induction ts as [|[lo n] ts IH]; intros acc; cbn [for_each]; [cbn; f_equal; ring|].
    destruct (slave_mul2_el h0 h1 h2 h3 x y lo n D0 M0 p1 M1 p2 M2 D3 E0 E1 E2 E3 E4 Y1) as [y1 [S1 _]]. rewrite S1. cbn [bind snd]. rewrite IH. f_equal. cbn [EffHamSpec.lsum fold_right]. unfold V at 2. cbn [fst snd]. unfold EffHamSpec.lsum. ring. }
  assert (W2 : forall js acc, for_each js (fun ts acc => let! v := worker_overlap R r0 radd rmul conj re h0 h1 h2 h3 x ts in Ok (acc +r v)) acc = Ok (acc +r lsum js (fun ts => lsum ts (fun t => re (V t))))).
  { induction js as [|ts js IH]; intros acc; cbn [for_each]; [cbn; f_equal; ring|]. unfold worker_overlap at 1. rewrite W. cbn [bind]. rewrite IH. f_equal. cbn [EffHamSpec.lsum fold_right]. unfold EffHamSpec.lsum. ring. }
  exists y. eexists. eexists. split; [exact Y1|]. unfold mpi_mul2. rewrite P1. cbn [bind]. rewrite W2. cbn [bind]. split; [reflexivity|]. split; [cbn [collect Legs.gd]; congruence|]. split.
  - intros a s t b Ha. rewrite collect_el, P2 by eauto 6. cbn [nth]. apply (cover degs D0); auto.
  - rewrite <- lsum_concat, (lsum_perm _ _ _ _ HJ), <- re_lsum. transitivity (re (lsum (sectors 0 degs) V)); [ring|]. f_equal. unfold V.
    etransitivity; [flat'|]. cbv beta. symmetry. etransitivity; [flat'|]. cbv beta. symmetry.
    etransitivity; [apply lsum_swap|]. apply lsum_ext. intros a Ha. apply in_seq in Ha. etransitivity; [apply lsum_swap|]. apply lsum_ext. intros s _. etransitivity; [apply lsum_swap|]. apply lsum_ext. intros t _.
    etransitivity; [apply lsum_swap|]. apply lsum_ext. intros b _. rewrite <- lsum_mul_r. f_equal. apply (cover degs D0); auto; lia.
Qed.
End Facts.
