(** The overlap of two chains with a product of one-site operators, by environments. *)
From Coq Require Import List Arith Lia Bool Ring.
From Verif Require Import Base FiniteMps FmpsSpec FmpsFacts EffHam EffHamSpec EffHamFacts Legs VmpsLocal VmpsSpec VmpsEnv ChainSpec CorrUpdate CorrSpec.
Import ListNotations.

Section Facts.
Variables (R : Type) (r0 r1 : R) (radd rmul rsub : R -> R -> R) (ropp : R -> R).
Variable Rth : ring_theory r0 r1 radd rmul rsub ropp (@eq R).
Variable conj : R -> R.
Hypothesis conj0 : conj r0 = r0.
Hypothesis conj1 : conj r1 = r1.
Hypothesis conj_add : forall x y, conj (radd x y) = radd (conj x) (conj y).
Hypothesis conj_mul : forall x y, conj (rmul x y) = rmul (conj x) (conj y).
Add Ring Rring : Rth.
Infix "+r" := radd (at level 50, left associativity).
Infix "*r" := rmul (at level 40, left associativity).
Notation gten := (gten R). Notation ge := (ge R). Notation gd := (gd R).
Notation sumn := (sumn R r0 radd). Notation lsum := (lsum R r0 radd). Notation delta := (delta R r0 r1).
Notation ten := (ten R). Notation ten_of := (ten_of R).
Notation mps_mat := (mps_mat R r0 r1 radd rmul). Notation prod_op := (prod_op R r0 r1 rmul). Notation sop := (nat -> nat -> R).
Notation lsum_ext := (lsum_ext R r0 radd). Notation lsum_swap := (lsum_swap R r0 r1 radd rmul rsub ropp Rth).
Notation lsum_mul_l := (lsum_mul_l R r0 r1 radd rmul rsub ropp Rth). Notation lsum_mul_r := (lsum_mul_r R r0 r1 radd rmul rsub ropp Rth).
Notation sumn_lsum := (sumn_lsum R r0 r1 radd rmul rsub ropp Rth). Notation lsum_flat := (lsum_flat R r0 r1 radd rmul rsub ropp Rth). Notation lsum_map := (lsum_map R r0 radd).
Notation delta_l := (delta_l R r0 r1 radd rmul rsub ropp Rth). Notation delta_r := (delta_r R r0 r1 radd rmul rsub ropp Rth).
Notation pull2 := (pull2 R r0 r1 radd rmul rsub ropp Rth). Notation pull3 := (pull3 R r0 r1 radd rmul rsub ropp Rth).
Notation lsum_conj := (lsum_conj R r0 radd conj conj0 conj_add).

(** bs: bra, ks: ket *)
Fixpoint pair (os : list sop) (bs ks : list ten) (x' x y' y : nat) : R :=
  match os, bs, ks with
  | [], [], [] => delta x' y' *r delta x y
  | o :: os, b :: bs, a :: ks => lsum (seq 0 (d1 b)) (fun s' => lsum (seq 0 (d1 a)) (fun s => lsum (seq 0 (d2 b)) (fun z' => lsum (seq 0 (d2 a)) (fun z =>
      conj (el b x' s' z') *r o s s' *r el a x s z *r pair os bs ks z' z y' y))))
  | _, _, _ => r0
  end.
Lemma conj_delta : forall x y, conj (delta x y) = delta x y.
Proof. intros. unfold FmpsSpec.delta. destruct (x =? y); auto. Qed.
Lemma pair_sum : forall os bs ks x' x y' y, length bs = length os -> length ks = length os ->
  pair os bs ks x' x y' y = lsum (configs (map (@d1 R) bs)) (fun c' => lsum (configs (map (@d1 R) ks)) (fun c => conj (mps_mat bs c' x' y') *r prod_op os c c' *r mps_mat ks c x y)).
Proof.
  induction os as [|o os IH]; intros bs ks x' x y' y Lb Lk; destruct bs as [|b bs], ks as [|a ks]; try discriminate.
  - cbn. rewrite conj_delta. ring.
  - cbn [pair map configs]. rewrite lsum_flat. apply lsum_ext. intros s' _. rewrite lsum_map.
    transitivity (lsum (seq 0 (d1 a)) (fun s => lsum (configs (map (@d1 R) bs)) (fun c' => lsum (configs (map (@d1 R) ks)) (fun c => conj (mps_mat (b :: bs) (s' :: c') x' y') *r prod_op (o :: os) (s :: c) (s' :: c') *r mps_mat (a :: ks) (s :: c) x y)))).
    + apply lsum_ext. intros s _. cbn [EffHamSpec.mps_mat CorrSpec.prod_op].
      transitivity (lsum (seq 0 (d2 b)) (fun z' => lsum (seq 0 (d2 a)) (fun z => lsum (configs (map (@d1 R) bs)) (fun c' => lsum (configs (map (@d1 R) ks)) (fun c =>
        conj (el b x' s' z') *r o s s' *r el a x s z *r (conj (mps_mat bs c' z' y') *r prod_op os c c' *r mps_mat ks c z y)))))).
      * apply lsum_ext. intros z' _. apply lsum_ext. intros z _. rewrite IH by (cbn in *; lia). rewrite lsum_mul_l. apply lsum_ext. intros c' _. rewrite lsum_mul_l. reflexivity.
      * etransitivity; [apply pull2|]. cbv beta. apply lsum_ext. intros c' _. etransitivity; [apply pull2|]. cbv beta. apply lsum_ext. intros c _.
        rewrite !sumn_lsum, lsum_conj. rewrite lsum_mul_r, lsum_mul_r. apply lsum_ext. intros z' _. rewrite lsum_mul_l. apply lsum_ext. intros z _. rewrite conj_mul. ring.
    + etransitivity; [apply lsum_swap|]. apply lsum_ext. intros c' _. rewrite lsum_flat. apply lsum_ext. intros s _. rewrite lsum_map. reflexivity.
Qed.
Notation fit := (fit R).
Lemma pair_app : forall os bs ks os2 bs2 ks2 X' X D' D x' x y' y, length bs = length os -> length ks = length os -> fit X' bs D' -> fit X ks D -> x' < X' -> x < X ->
  pair (os ++ os2) (bs ++ bs2) (ks ++ ks2) x' x y' y = lsum (seq 0 D') (fun w' => lsum (seq 0 D) (fun w => pair os bs ks x' x w' w *r pair os2 bs2 ks2 w' w y' y)).
Proof.
  induction os as [|o os IH]; intros bs ks os2 bs2 ks2 X' X D' D x' x y' y Lb Lk Fb Fk Hx' Hx; destruct bs as [|b bs], ks as [|a ks]; try discriminate.
  - cbn in Fb, Fk. subst D' D. cbn [app pair]. transitivity (lsum (seq 0 X') (fun w' => delta x' w' *r lsum (seq 0 X) (fun w => delta x w *r pair os2 bs2 ks2 w' w y' y))).
    + rewrite delta_l by exact Hx'. rewrite delta_l by exact Hx. reflexivity.
    + apply lsum_ext. intros w' _. rewrite lsum_mul_l. apply lsum_ext. intros w _. ring.
  - cbn [fst EffHamSpec.fit] in Fb, Fk. destruct Fb as [_ Fb], Fk as [_ Fk]. cbn [app pair].
    transitivity (lsum (seq 0 (d1 b)) (fun s' => lsum (seq 0 (d1 a)) (fun s => lsum (seq 0 (d2 b)) (fun z' => lsum (seq 0 (d2 a)) (fun z => lsum (seq 0 D') (fun w' => lsum (seq 0 D) (fun w =>
      conj (el b x' s' z') *r o s s' *r el a x s z *r pair os bs ks z' z w' w *r pair os2 bs2 ks2 w' w y' y))))))).
    + apply lsum_ext. intros s' _. apply lsum_ext. intros s _. apply lsum_ext. intros z' Hz'. apply lsum_ext. intros z Hz. apply in_seq in Hz, Hz'.
      rewrite (IH bs ks os2 bs2 ks2 (d2 b) (d2 a) D' D z' z y' y) by (auto; cbn in *; lia). rewrite lsum_mul_l. apply lsum_ext. intros w' _. rewrite lsum_mul_l. apply lsum_ext. intros w _. ring.
    + symmetry. transitivity (lsum (seq 0 D') (fun w' => lsum (seq 0 D) (fun w => lsum (seq 0 (d1 b)) (fun s' => lsum (seq 0 (d1 a)) (fun s => lsum (seq 0 (d2 b)) (fun z' => lsum (seq 0 (d2 a)) (fun z =>
        conj (el b x' s' z') *r o s s' *r el a x s z *r pair os bs ks z' z w' w *r pair os2 bs2 ks2 w' w y' y))))))).
      * apply lsum_ext. intros w' _. apply lsum_ext. intros w _. rewrite lsum_mul_r. apply lsum_ext. intros s' _. rewrite lsum_mul_r. apply lsum_ext. intros s _. rewrite lsum_mul_r. apply lsum_ext. intros z' _. rewrite lsum_mul_r. reflexivity.
      * etransitivity; [apply pull2|]. cbv beta. apply lsum_ext. intros s' _. etransitivity; [apply pull2|]. cbv beta. apply lsum_ext. intros s _. etransitivity; [apply pull2|]. cbv beta. apply lsum_ext. intros z' _. apply pull2.
Qed.
Lemma pair_one : forall o b a x' x y' y, y' < d2 b -> y < d2 a -> pair [o] [b] [a] x' x y' y = lsum (seq 0 (d1 b)) (fun s' => lsum (seq 0 (d1 a)) (fun s => conj (el b x' s' y') *r o s s' *r el a x s y)).
Proof.
  intros o b a x' x y' y H1 H2. cbn [pair]. apply lsum_ext. intros s' _. apply lsum_ext. intros s _.
  transitivity (lsum (seq 0 (d2 b)) (fun z' => (lsum (seq 0 (d2 a)) (fun z => conj (el b x' s' z') *r o s s' *r el a x s z *r delta z y)) *r delta z' y')).
  - apply lsum_ext. intros z' _. rewrite lsum_mul_r. apply lsum_ext. intros z _. ring.
  - rewrite (delta_r _ _ (fun z' => lsum (seq 0 (d2 a)) (fun z => conj (el b x' s' z') *r o s s' *r el a x s z *r delta z y)) H1).
    exact (delta_r _ _ (fun z => conj (el b x' s' y') *r o s s' *r el a x s z) H2).
Qed.

(** *** the contractions *)
Lemma o_right_el : forall b a r D' p E' D E, gd b = [D'; p; E'] -> gd a = [D; p; E] -> gd r = [E'; E] ->
  exists e, o_right R r0 radd rmul conj b a r = Ok e /\ gd e = [D'; D] /\ forall x' x, ge e [x'; x] =
    sumn p (fun s => sumn E (fun z => sumn E' (fun z' => conj (ge b [x'; s; z']) *r ge r [z'; z]) *r ge a [x; s; z])).
Proof. intros [? b] [? a] [? r] D' p E' D E H1 H2 H3. cbn in H1, H2, H3. subst. eexists. split; [legs; reflexivity|]. split; [reflexivity|]. intros. legs. reflexivity. Qed.
Definition o_sum (o : option gten) (s : nat) (f : nat -> R) (p : nat) : R := match o with None => f s | Some o => sumn p (fun s' => ge o [s; s'] *r f s') end.
Lemma o_left_el : forall o l b a D' p E' D E, gd b = [D'; p; E'] -> gd a = [D; p; E] -> gd l = [D'; D] -> match o with Some o => gd o = [p; p] | None => True end ->
  exists e, o_left R r0 radd rmul conj o l b a = Ok e /\ gd e = [E'; E] /\ forall y' y, ge e [y'; y] =
    sumn D (fun x => sumn p (fun s => o_sum o s (fun s' => sumn D' (fun x' => conj (ge b [x'; s'; y']) *r ge l [x'; x])) p *r ge a [x; s; y])).
Proof.
  intros [[? o]|] [? l] [? b] [? a] D' p E' D E H1 H2 H3 H4; cbn in H1, H2, H3, H4; subst; (eexists; split; [legs; reflexivity|]; split; [reflexivity|]; intros; legs; reflexivity).
Qed.
Lemma o_val_el : forall o l b a r D' p E' D E, gd b = [D'; p; E'] -> gd a = [D; p; E] -> gd l = [D'; D] -> gd r = [E'; E] -> gd o = [p; p] ->
  o_val R r0 radd rmul conj o l b a r = Ok (sumn E' (fun y' => sumn E (fun y => sumn D (fun x => sumn p (fun s => o_sum (Some o) s (fun s' => sumn D' (fun x' => conj (ge b [x'; s'; y']) *r ge l [x'; x])) p *r ge a [x; s; y])) *r ge r [y'; y]))).
Proof. intros [? o] [? l] [? b] [? a] [? r] D' p E' D E H1 H2 H3 H4 H5. cbn in H1, H2, H3, H4, H5. subst. legs. reflexivity. Qed.

(** *** in terms of [pair] *)
Notation op_sum := (fun (o : option gten) => match o with Some o => fun s s' => ge o [s; s'] | None => delta end).
Lemma o_sum_lsum : forall o s f p, s < p -> o_sum o s f p = lsum (seq 0 p) (fun s' => op_sum o s s' *r f s').
Proof. intros [o|] s f p H; cbn [o_sum]; [apply sumn_lsum|]. symmetry. apply delta_l. exact H. Qed.
(** the sums of a step of the left contraction, sorted *)
Lemma left_sum : forall (o : option gten) (b a : nat -> nat -> nat -> R) (L : nat -> nat -> R) D' D p y' y,
  sumn D (fun x => sumn p (fun s => o_sum o s (fun s' => sumn D' (fun x' => conj (b x' s' y') *r L x' x)) p *r a x s y)) =
  lsum (seq 0 D') (fun x' => lsum (seq 0 D) (fun x => L x' x *r lsum (seq 0 p) (fun s' => lsum (seq 0 p) (fun s => conj (b x' s' y') *r op_sum o s s' *r a x s y)))).
Proof.
  intros o b a L D' D p y' y. rewrite sumn_lsum.
  transitivity (lsum (seq 0 D) (fun x => lsum (seq 0 D') (fun x' => lsum (seq 0 p) (fun s' => lsum (seq 0 p) (fun s => L x' x *r (conj (b x' s' y') *r op_sum o s s' *r a x s y)))))).
  - apply lsum_ext. intros x _. rewrite sumn_lsum.
    transitivity (lsum (seq 0 p) (fun s => lsum (seq 0 p) (fun s' => lsum (seq 0 D') (fun x' => L x' x *r (conj (b x' s' y') *r op_sum o s s' *r a x s y))))).
    + apply lsum_ext. intros s Hs. apply in_seq in Hs. rewrite o_sum_lsum by lia. rewrite lsum_mul_r. apply lsum_ext. intros s' _. rewrite sumn_lsum, lsum_mul_l, lsum_mul_r. apply lsum_ext. intros x' _. ring.
    + etransitivity; [apply pull2|]. cbv beta. apply lsum_ext. intros x' _. apply lsum_swap.
  - etransitivity; [apply lsum_swap|]. apply lsum_ext. intros x' _. apply lsum_ext. intros x _. rewrite lsum_mul_l. apply lsum_ext. intros s' _. rewrite lsum_mul_l. reflexivity.
Qed.
Lemma left_pair : forall o l b a D' p E' D E os bs ks, gd b = [D'; p; E'] -> gd a = [D; p; E] -> gd l = [D'; D] -> match o with Some o => gd o = [p; p] | None => True end ->
  length bs = length os -> length ks = length os -> fit 1 bs D' -> fit 1 ks D -> (forall x' x, x' < D' -> x < D -> ge l [x'; x] = pair os bs ks 0 0 x' x) ->
  exists e, o_left R r0 radd rmul conj o l b a = Ok e /\ gd e = [E'; E] /\ forall y' y, y' < E' -> y < E -> ge e [y'; y] = pair (os ++ [op_sum o]) (bs ++ [ten_of b]) (ks ++ [ten_of a]) 0 0 y' y.
Proof.
  intros o l b a D' p E' D E os bs ks H1 H2 H3 H4 Lb Lk Fb Fk HL. destruct (o_left_el o l b a D' p E' D E H1 H2 H3 H4) as [e [O1 [O2 O3]]]. exists e. split; [exact O1|]. split; [exact O2|].
  intros y' y Hy' Hy. rewrite O3, (left_sum o (fun x' s' y' => ge b [x'; s'; y']) (fun x s y => ge a [x; s; y]) (fun x' x => ge l [x'; x]) D' D p y' y).
  rewrite (pair_app os bs ks [op_sum o] [ten_of b] [ten_of a] 1 1 D' D 0 0 y' y) by auto. apply lsum_ext. intros x' Hx'. apply lsum_ext. intros x Hx. apply in_seq in Hx, Hx'. rewrite HL by lia.
  destruct (ten_dims R _ _ _ _ H1) as [B0 [B1 B2]]. destruct (ten_dims R _ _ _ _ H2) as [A0 [A1 A2]].
  rewrite pair_one by (rewrite ?B2, ?A2; assumption). rewrite B1, A1. reflexivity.
Qed.
Lemma right_pair : forall b a r D' p E' D E os bs ks, gd b = [D'; p; E'] -> gd a = [D; p; E] -> gd r = [E'; E] ->
  (forall y' y, y' < E' -> y < E -> ge r [y'; y] = pair os bs ks y' y 0 0) ->
  exists e, o_right R r0 radd rmul conj b a r = Ok e /\ gd e = [D'; D] /\ forall x' x, ge e [x'; x] = pair (delta :: os) (ten_of b :: bs) (ten_of a :: ks) x' x 0 0.
Proof.
  intros b a r D' p E' D E os bs ks H1 H2 H3 HR. destruct (o_right_el b a r D' p E' D E H1 H2 H3) as [e [O1 [O2 O3]]]. exists e. split; [exact O1|]. split; [exact O2|].
  intros x' x. rewrite O3. destruct (ten_dims R _ _ _ _ H1) as [B0 [B1 B2]]. destruct (ten_dims R _ _ _ _ H2) as [A0 [A1 A2]]. cbn [pair]. rewrite B1, B2, A1, A2, sumn_lsum.
  transitivity (lsum (seq 0 p) (fun s => lsum (seq 0 p) (fun s' => delta s s' *r lsum (seq 0 E') (fun z' => lsum (seq 0 E) (fun z => conj (ge b [x'; s'; z']) *r ge a [x; s; z] *r pair os bs ks z' z 0 0))))).
  - apply lsum_ext. intros s Hs. apply in_seq in Hs. rewrite delta_l by lia. rewrite sumn_lsum.
    transitivity (lsum (seq 0 E) (fun z => lsum (seq 0 E') (fun z' => conj (ge b [x'; s; z']) *r ge a [x; s; z] *r pair os bs ks z' z 0 0))); [|apply lsum_swap].
    apply lsum_ext. intros z Hz. rewrite sumn_lsum, lsum_mul_r. apply lsum_ext. intros z' Hz'. apply in_seq in Hz, Hz'. rewrite HR by lia. ring.
  - etransitivity; [apply lsum_swap|]. apply lsum_ext. intros s' _. apply lsum_ext. intros s _. rewrite lsum_mul_l. apply lsum_ext. intros z' _. rewrite lsum_mul_l. apply lsum_ext. intros z _. cbn [Legs.ten_of el]. ring.
Qed.
Lemma val_pair : forall o l b a r D' p E' D E os bs ks os2 bs2 ks2, gd b = [D'; p; E'] -> gd a = [D; p; E] -> gd l = [D'; D] -> gd r = [E'; E] -> gd o = [p; p] ->
  length bs = length os -> length ks = length os -> fit 1 bs D' -> fit 1 ks D -> (forall x' x, x' < D' -> x < D -> ge l [x'; x] = pair os bs ks 0 0 x' x) ->
  (forall y' y, y' < E' -> y < E -> ge r [y'; y] = pair os2 bs2 ks2 y' y 0 0) ->
  o_val R r0 radd rmul conj o l b a r = Ok (pair (os ++ [fun s s' => ge o [s; s']] ++ os2) (bs ++ [ten_of b] ++ bs2) (ks ++ [ten_of a] ++ ks2) 0 0 0 0).
Proof.
  intros o l b a r D' p E' D E os bs ks os2 bs2 ks2 H1 H2 H3 H4 H5 Lb Lk Fb Fk HL HR. rewrite (o_val_el o l b a r D' p E' D E H1 H2 H3 H4 H5). f_equal.
  destruct (ten_dims R _ _ _ _ H1) as [B0 [B1 B2]]. destruct (ten_dims R _ _ _ _ H2) as [A0 [A1 A2]].
  rewrite !app_assoc. rewrite (pair_app (os ++ [_]) (bs ++ [ten_of b]) (ks ++ [ten_of a]) os2 bs2 ks2 1 1 E' E 0 0 0 0); auto; try (rewrite !app_length; cbn [length]; lia).
  2: { apply (fit_app R bs [ten_of b] 1 D' E'); [exact Fb|]. cbn [EffHamSpec.fit]. rewrite B0, B2. auto. }
  2: { apply (fit_app R ks [ten_of a] 1 D E); [exact Fk|]. cbn [EffHamSpec.fit]. rewrite A0, A2. auto. }
  rewrite sumn_lsum. apply lsum_ext. intros y' Hy'. rewrite sumn_lsum. apply lsum_ext. intros y Hy. apply in_seq in Hy, Hy'. rewrite HR by lia. f_equal.
  rewrite (left_sum (Some o) (fun x' s' y' => ge b [x'; s'; y']) (fun x s y => ge a [x; s; y]) (fun x' x => ge l [x'; x]) D' D p y' y).
  rewrite (pair_app os bs ks _ [ten_of b] [ten_of a] 1 1 D' D 0 0 y' y) by auto. apply lsum_ext. intros x' Hx'. apply lsum_ext. intros x Hx. apply in_seq in Hx, Hx'. rewrite HL by lia.
  rewrite pair_one by (rewrite ?B2, ?A2; lia). rewrite B1, A1. reflexivity.
Qed.

(** *** acting with an operator *)
Lemma act_el : forall o t D p E, gd o = [p; p] -> gd t = [D; p; E] -> exists t',
  (let! x := gcontract R r0 radd rmul [0] [1] o t in gtrans R [1; 0; 2] x) = Ok t' /\ gd t' = [D; p; E] /\ forall x s' y, ge t' [x; s'; y] = sumn p (fun s => ge o [s; s'] *r ge t [x; s; y]).
Proof. intros [? o] [? t] D p E H1 H2. cbn in H1, H2. subst. eexists. split; [legs; reflexivity|]. split; [reflexivity|]. intros. legs. reflexivity. Qed.
(** a' = o a *)
Definition acts (o : sop) (a a' : ten) : Prop := d1 a' = d1 a /\ d2 a' = d2 a /\ forall x s' y, s' < d1 a -> el a' x s' y = lsum (seq 0 (d1 a)) (fun s => o s s' *r el a x s y).
Inductive acts_all : list sop -> list ten -> list ten -> Prop :=
| acts_nil : acts_all [] [] []
| acts_cons : forall o a a' os ks ks', acts o a a' -> acts_all os ks ks' -> acts_all (o :: os) (a :: ks) (a' :: ks').
Lemma acts_mat : forall os ks ks', acts_all os ks ks' -> forall c' x y, In c' (configs (map (@d1 R) ks)) ->
  mps_mat ks' c' x y = lsum (configs (map (@d1 R) ks)) (fun c => prod_op os c c' *r mps_mat ks c x y).
Proof.
  intros os ks ks' H. induction H as [|o a a' os ks ks' [E1 [E2 E3]] H IH]; intros c' x y Ic.
  - destruct Ic as [<-|[]]. cbn. ring.
  - cbn [map configs] in Ic. apply in_flat_map in Ic. destruct Ic as [s' [Is Ic]]. apply in_map_iff in Ic. destruct Ic as [k' [<- Ic]]. apply in_seq in Is.
    cbn [map configs EffHamSpec.mps_mat]. rewrite lsum_flat, E2, sumn_lsum.
    transitivity (lsum (seq 0 (d2 a)) (fun z => lsum (seq 0 (d1 a)) (fun s => lsum (configs (map (@d1 R) ks)) (fun c => o s s' *r el a x s z *r (prod_op os c k' *r mps_mat ks c z y))))).
    + apply lsum_ext. intros z _. rewrite E3 by lia. rewrite (IH k' z y Ic), lsum_mul_r. apply lsum_ext. intros s _. rewrite lsum_mul_l. reflexivity.
    + etransitivity; [apply lsum_swap|]. apply lsum_ext. intros s _. rewrite lsum_map. etransitivity; [apply lsum_swap|]. apply lsum_ext. intros c _. cbn [CorrSpec.prod_op EffHamSpec.mps_mat].
      rewrite sumn_lsum, lsum_mul_l. apply lsum_ext. intros z _. ring.
Qed.
Lemma acts_id : forall a, acts delta a a.
Proof.
  intros a. split; [reflexivity|]. split; [reflexivity|]. intros x s' y H. transitivity (lsum (seq 0 (d1 a)) (fun s => el a x s y *r delta s s')).
  - symmetry. exact (delta_r _ _ (fun s => el a x s y) H).
  - apply lsum_ext. intros s _. ring.
Qed.
End Facts.
