(** Proofs about Tdvp.v *)
From Coq Require Import List Arith Lia Bool QArith.
From Verif Require Import Base Disk SweepSpec DiskFacts TwoSite TwoSiteFacts Tdvp TdvpSpec.
Import ListNotations.
Local Open Scope nat_scope.

(** ** The schedule *)
Lemma subs_app a b : subs (a ++ b) = subs a ++ subs b.
Proof. unfold subs. rewrite flat_map_app. auto. Qed.
Lemma subs_TB p : subs (map TB p) = [].
Proof. induction p; auto. Qed.
Lemma subs_flat {A} (f : A -> list tinstr) l : subs (flat_map f l) = flat_map (fun x => subs (f x)) l.
Proof. induction l as [|a l IH]; cbn; auto. rewrite subs_app, IH. auto. Qed.
Lemma subs_right N tau i : subs (tstep_right N tau i) = [Two true i (tau / 2)%Q; One (i + 1) (- tau / 2)%Q].
Proof. unfold tstep_right. rewrite !subs_app, !subs_TB. reflexivity. Qed.
Lemma subs_left N tau i : subs (tstep_left N tau i) = [Two false (i - 1) (fwd_time (if i =? N - 1 then tau * 2 else tau)%Q); One (i - 1) (- tau / 2)%Q].
Proof. unfold tstep_left. rewrite !subs_app, !subs_TB. reflexivity. Qed.
Lemma lefts_sched N tau : forall k, k + 2 < N -> 
  flat_map (fun i => subs (tstep_left N tau i)) (rev (seq 2 k)) ++ [Two true 0 (tau / 2)%Q] =
  [Two (k =? 0) k (tau / 2)%Q] ++ flat_map (fun j => [One j (- tau / 2)%Q; Two (j =? 1) (j - 1) (tau / 2)%Q]) (rev (seq 1 k)).
Proof.
  induction k as [|k IH]; intros HK; [reflexivity|]. rewrite !seq_S, !rev_unit. cbn [flat_map]. rewrite <- app_assoc, IH by lia. rewrite subs_left.
  replace (2 + k - 1) with (S k) by lia. replace (1 + k) with (S k) by lia. replace (S k - 1) with k by lia.
  replace (2 + k =? N - 1) with false by (symmetry; apply Nat.eqb_neq; lia). reflexivity.
Qed.
Lemma sweep_schedule N tau : 3 <= N -> subs (tdvp_sweep N tau) = schedule N tau.
Proof.
  intros HN. unfold tdvp_sweep, schedule. rewrite !subs_app, !subs_TB, !subs_flat. cbn [app]. f_equal.
  - apply flat_map_ext. intros. apply subs_right.
  - cbn [subs flat_map app]. change (fwd_time tau) with (tau / 2)%Q. replace (N - 2) with (S (N - 3)) by lia. rewrite !seq_S, !rev_unit. cbn [flat_map]. rewrite <- app_assoc. rewrite lefts_sched by lia. rewrite subs_left.
    replace (2 + (N - 3) =? N - 1) with true by (symmetry; apply Nat.eqb_eq; lia). replace (2 + (N - 3) - 1) with (S (N - 3)) by lia. replace (1 + (N - 3)) with (S (N - 3)) by lia.
    replace (S (N - 3) - 1) with (N - 3) by lia. cbn [app]. reflexivity.
Qed.
Local Open Scope Q_scope.
Lemma qsum_app a b : qsum (a ++ b) == qsum a + qsum b.
Proof. induction a as [|x a IH]; [symmetry; apply Qplus_0_l|]. change (x + qsum (a ++ b) == x + qsum a + qsum b). rewrite IH. apply Qplus_assoc. Qed.
Lemma bond_app l a b : bond_time l (a ++ b) == bond_time l a + bond_time l b.
Proof. unfold bond_time. rewrite map_app, qsum_app. reflexivity. Qed.
Lemma site_app l a b : site_time l (a ++ b) == site_time l a + site_time l b.
Proof. unfold site_time. rewrite map_app, qsum_app. reflexivity. Qed.
Lemma bond_right tau l k : forall s, bond_time l (flat_map (fun i => [Two true i (tau / 2); One (i + 1)%nat (- tau / 2)]) (seq s k)) == if (s <=? l)%nat && (l <? s + k)%nat then tau / 2 else 0.
Proof.
  induction k as [|k IH]; intros s; cbn [seq flat_map].
  - destruct (Nat.leb_spec s l), (Nat.ltb_spec l (s + 0)); cbn; try ring; lia.
  - rewrite bond_app, IH. unfold bond_time. cbn [map qsum fold_right]. destruct (Nat.eqb_spec s l); destruct (Nat.leb_spec s l), (Nat.leb_spec (S s) l), (Nat.ltb_spec l (s + S k)), (Nat.ltb_spec l (S s + k)); cbn [andb]; try lia; ring.
Qed.
Lemma bond_left tau l k : bond_time l (flat_map (fun j => [One j (- tau / 2); Two (j =? 1)%nat (j - 1) (tau / 2)]) (rev (seq 1 k))) == if (l <? k)%nat then tau / 2 else 0.
Proof.
  induction k as [|k IH].
  - cbn. reflexivity.
  - rewrite seq_S, rev_unit. cbn [flat_map]. rewrite bond_app, IH. unfold bond_time. cbn [map qsum fold_right]. replace (1 + k - 1)%nat with k by lia.
    destruct (Nat.eqb_spec k l); destruct (Nat.ltb_spec l k), (Nat.ltb_spec l (S k)); try lia; ring.
Qed.
Lemma site_right tau l k : forall s, site_time l (flat_map (fun i => [Two true i (tau / 2); One (i + 1)%nat (- tau / 2)]) (seq s k)) == if (S s <=? l)%nat && (l <? S s + k)%nat then - tau / 2 else 0.
Proof.
  induction k as [|k IH]; intros s; cbn [seq flat_map].
  - destruct (Nat.leb_spec (S s) l), (Nat.ltb_spec l (S s + 0)); cbn [andb]; try (unfold site_time; cbn; ring); lia.
  - rewrite site_app, IH. unfold site_time. cbn [map qsum fold_right]. destruct (Nat.eqb_spec (s + 1) l); destruct (Nat.leb_spec (S s) l), (Nat.leb_spec (S (S s)) l), (Nat.ltb_spec l (S s + S k)), (Nat.ltb_spec l (S (S s) + k)); cbn [andb]; try lia; ring.
Qed.
Lemma site_left tau l k : site_time l (flat_map (fun j => [One j (- tau / 2); Two (j =? 1)%nat (j - 1) (tau / 2)]) (rev (seq 1 k))) == if (1 <=? l)%nat && (l <=? k)%nat then - tau / 2 else 0.
Proof.
  induction k as [|k IH].
  - destruct (Nat.leb_spec 1 l), (Nat.leb_spec l 0); cbn; try ring; lia.
  - rewrite seq_S, rev_unit. cbn [flat_map]. rewrite site_app, IH. unfold site_time. cbn [map qsum fold_right].
    destruct (Nat.eqb_spec (1 + k) l); destruct (Nat.leb_spec 1 l), (Nat.leb_spec l k), (Nat.leb_spec l (S k)); cbn [andb]; try lia; ring.
Qed.
Lemma bond_total N tau l : (3 <= N)%nat -> (l + 1 < N)%nat -> bond_time l (schedule N tau) == tau.
Proof.
  intros HN HL. unfold schedule. rewrite !bond_app, bond_right, bond_left. unfold bond_time. cbn [map qsum fold_right].
  destruct (Nat.eqb_spec (N - 2) l); destruct (Nat.leb_spec 0 l), (Nat.ltb_spec l (0 + (N - 2))), (Nat.ltb_spec l (N - 2)); cbn [andb]; try lia; field.
Qed.
Lemma site_total N tau j : (3 <= N)%nat -> site_time j (schedule N tau) == if (1 <=? j)%nat && (j + 1 <? N)%nat then - tau else 0.
Proof.
  intros HN. unfold schedule. rewrite !site_app, site_right, site_left. unfold site_time. cbn [map qsum fold_right].
  destruct (Nat.leb_spec 1 j), (Nat.ltb_spec j (1 + (N - 2))), (Nat.leb_spec j (N - 2)), (Nat.ltb_spec (j + 1) N); cbn [andb]; try lia; field.
Qed.
Local Close Scope Q_scope.
Lemma same_refl x : same_sub x x.
Proof. destruct x; cbn; split; auto; reflexivity. Qed.
Lemma rev_flat2 {A B} (f g : A -> B) l : rev (flat_map (fun x => [f x; g x]) l) = flat_map (fun x => [g x; f x]) (rev l).
Proof. induction l as [|a l IH]; auto. cbn [flat_map]. cbn [rev]. rewrite flat_map_app, rev_app_distr, IH. reflexivity. Qed.
Lemma flat_shift {B} (f : nat -> list B) k : forall s, flat_map f (seq (S s) k) = flat_map (fun i => f (S i)) (seq s k).
Proof. induction k as [|k IH]; intros s; cbn; auto. rewrite IH. auto. Qed.
Lemma Forall2_same_flat {A} (f g : A -> list sub) l : (forall a, Forall2 same_sub (f a) (g a)) -> Forall2 same_sub (flat_map f l) (flat_map g l).
Proof. intros H. induction l; cbn; auto. apply Forall2_app; auto. Qed.
Lemma palindrome N tau : Forall2 same_sub (schedule N tau) (rev (schedule N tau)).
Proof.
  unfold schedule. rewrite !rev_app_distr. cbn [rev]. rewrite !rev_flat2, rev_involutive. rewrite <- app_assoc. apply Forall2_app; [|apply Forall2_app].
  - rewrite flat_shift. apply Forall2_same_flat. intros a. repeat constructor; cbn; try lia; reflexivity.
  - constructor; auto. apply same_refl.
  - rewrite <- seq_shift, <- map_rev. rewrite flat_map_concat_map, map_map, <- flat_map_concat_map. apply Forall2_same_flat. intros a. repeat constructor; cbn; try lia; reflexivity.
Qed.

(** ** Sweeps on disk *)
Section Facts.
Variables T E M V : Type.
Variables (dT : T) (dE : E) (dM : M) (triv : side -> E) (grow : side -> nat -> E -> T -> E).
Variables (canoL canoR : T -> T -> T * T).
Variable evo : bool -> nat -> Q -> E -> T -> T -> E -> T * T.
Variable back : nat -> Q -> E -> T -> E -> T.
Variable dbg : bool.
Notation world := (world T E unit).
Notation exec := (exec T E unit dT dE triv grow (no_solve T E) canoL canoR dbg).
Notation texec := (texec T E dT dE triv grow canoL canoR evo back dbg).
Notation nm := (nm T E unit). Notation mm := (mm T E unit). Notation ne := (ne T E unit). Notation dm := (dm T E unit).
Notation le := (le T E unit). Notation re := (re T E unit). Notation dl := (dl T E unit). Notation dr := (dr T E unit).
Notation eng := (eng T E unit). Notation acc := (acc T E unit). Notation tmp := (tmp T E unit).
Variable N : nat.
Notation left_env := (left_env T E triv grow). Notation right_env := (right_env T E triv grow N).
Notation evolve := (evolve T E triv grow evo back N).
Notation rpoint := (rpoint T E unit triv grow N). Notation lpoint := (lpoint T E unit triv grow N). Notation lmem := (lmem N).

Lemma texec_app : forall p q w, texec (p ++ q) w = bind (texec p w) (texec q).
Proof. induction p as [|c p IH]; intros; auto. cbn [Tdvp.texec app]. destruct (texec1 _ _ _ _ _ _ _ _ _ _ _ c w); cbn [bind]; auto. Qed.
Lemma texec_B : forall p w, texec (map TB p) w = exec p w.
Proof. induction p as [|c p IH]; intros; auto. cbn [map Tdvp.texec Disk.exec Tdvp.texec1]. destruct (exec1 _ _ _ _ _ _ _ _ _ _ _ c w); cbn [bind]; auto. Qed.
Lemma texec_Bs : forall p q w w', exec p w = Ok w' -> texec (map TB p ++ q) w = texec q w'.
Proof. intros p q w w' H. rewrite texec_app, texec_B, H. auto. Qed.
Lemma tex_EvoR : forall l tau q w el er a b a' b', l + 1 < nm w -> l + 1 < ne w -> nm w - (l + 2) < ne w ->
  le w l = Some el -> re w (nm w - (l + 2)) = Some er -> mm w l = Some a -> mm w (l + 1) = Some b -> evo true l (fwd_time tau) el a b er = (a', b') ->
  texec (Evo true l tau :: q) w = texec q (set_e T E unit L (fset (le w) (l + 1) (Some (grow L l el a'))) (set_mm T E unit (fset (fset (mm w) l (Some a')) (l + 1) (Some b')) w)).
Proof.
  intros. cbn [Tdvp.texec Tdvp.texec1]. unfold getE, getM, putM, putE. destruct w as [nm_ mm_ ne_ le0 re0 acc_ eng_ dm_ dl_ dr_ tmp_]; simpl in *.
  rewrite !ltb_t by lia. rewrite H2, H3, H4, H5. simpl. rewrite H6. simpl. repeat (rewrite ltb_t by lia; simpl). reflexivity.
Qed.
Lemma tex_EvoL : forall l tau q w el er a b a' b', l + 1 < nm w -> l < ne w -> nm w - (l + 1) < ne w ->
  le w l = Some el -> re w (nm w - (l + 2)) = Some er -> mm w l = Some a -> mm w (l + 1) = Some b -> evo false l (fwd_time tau) el a b er = (a', b') ->
  texec (Evo false l tau :: q) w = texec q (set_e T E unit R (fset (re w) (nm w - (l + 1)) (Some (grow R (l + 1) er b'))) (set_mm T E unit (fset (fset (mm w) l (Some a')) (l + 1) (Some b')) w)).
Proof.
  intros. cbn [Tdvp.texec Tdvp.texec1]. unfold getE, getM, putM, putE. destruct w as [nm_ mm_ ne_ le0 re0 acc_ eng_ dm_ dl_ dr_ tmp_]; simpl in *.
  rewrite !ltb_t by lia. rewrite H2, H3, H4, H5. simpl. rewrite H6. simpl. repeat (rewrite ltb_t by lia; simpl). reflexivity.
Qed.
Lemma tex_Back : forall j tau q w el er a, j < nm w -> j < ne w -> nm w - j - 1 < ne w ->
  le w j = Some el -> re w (nm w - j - 1) = Some er -> mm w j = Some a ->
  texec (Back j tau :: q) w = texec q (set_mm T E unit (fset (mm w) j (Some (back j (bwd_time tau) el a er))) w).
Proof.
  intros. cbn [Tdvp.texec Tdvp.texec1]. unfold getE, getM, putM. destruct w as [nm_ mm_ ne_ le0 re0 acc_ eng_ dm_ dl_ dr_ tmp_]; simpl in *.
  rewrite !ltb_t by lia. rewrite H2, H3, H4. simpl. try rewrite ltb_t by lia. reflexivity.
Qed.
Lemma tstep_right_ok : forall tau ts i w q, i < N - 2 -> rpoint ts i w -> exists w', texec (tstep_right N tau i ++ q) w = texec q w' /\
  rpoint (fold_left evolve (subs (tstep_right N tau i)) ts) (S i) w' /\ tmp w' = tmp w.
Proof.
  intros tau ts i w q HI [P1 P2 P3 P4 P5 P6 P7 P8]. rewrite subs_right. cbn [fold_left].
  unfold evolve at 2, TdvpSpec.evolve. destruct (evo true i (tau / 2)%Q (left_env ts i) (ts i) (ts (i + 1)) (right_env ts (N - (i + 2)))) as [a b] eqn:ES.
  unfold tstep_right. rewrite <- !app_assoc.
  assert (LD : exists w1, exec (load_right N i) w = Ok w1 /\ nm w1 = N /\ ne w1 = N - 1 /\
    mm w1 i = Some (ts i) /\ mm w1 (i + 1) = Some (ts (i + 1)) /\ (forall j, j < N -> j <> i -> j <> i + 1 -> mm w1 j = None) /\
    dm w1 = dm w /\ dl w1 = dl w /\ (forall n, n < N - 2 - i -> dr w1 n = Some (right_env ts n)) /\
    le w1 i = Some (left_env ts i) /\ (forall j, j < N - 1 -> j <> i -> le w1 j = None) /\
    re w1 (N - (i + 2)) = Some (right_env ts (N - (i + 2))) /\ (forall j, j < N - 1 -> j <> N - (i + 2) -> re w1 j = None) /\ tmp w1 = tmp w).
  { unfold load_right. destruct (Nat.eqb_spec i 0) as [->|NZ].
    - rewrite (ex_LoadM _ _ _ _ _ _ _ _ _ _ _ _ _ _ (ts 0)); [|lia|apply P4; [lia|]; unfold rmem; simpl; lia].
      rewrite (ex_LoadE _ _ _ _ _ _ _ _ _ _ _ _ _ _ _ (right_env ts (N - 2))); [|cbn; lia|fs; apply P5; lia].
      rewrite ex_RmE. rewrite (ex_LoadE _ _ _ _ _ _ _ _ _ _ _ _ _ _ _ (left_env ts 0)); [|cbn; lia|fs; apply P6; lia].
      eexists. split; [reflexivity|]. fs. repeat split; auto.
      + rewrite P3 by lia. auto.
      + intros j H1 H2 H3. fs. rewrite P3 by lia. unfold rmem. simpl. eqb_dec. auto.
      + intros n Hn. fs. apply P5. lia.
      + intros j H1 H2. fs. rewrite P7 by lia. eqb_dec. auto.
      + intros j H1 H2. fs. auto.
    - rewrite (ex_LoadM _ _ _ _ _ _ _ _ _ _ _ _ _ _ (ts (i + 1))); [|lia|apply P4; [lia|]; unfold rmem; eqb_dec; lia].
      rewrite (ex_LoadE _ _ _ _ _ _ _ _ _ _ _ _ _ _ _ (right_env ts (N - (i + 2)))); [|cbn; lia|fs; apply P5; lia].
      rewrite ex_RmE. eexists. split; [reflexivity|]. fs. repeat split; auto.
      + rewrite P3 by lia. unfold rmem. eqb_dec. auto.
      + intros j H1 H2 H3. fs. rewrite P3 by lia. unfold rmem. eqb_dec. auto.
      + intros n Hn. fs. apply P5. lia.
      + rewrite P7 by lia. eqb_dec. replace (0 <? i) with true by (symmetry; apply Nat.ltb_lt; lia). auto.
      + intros j H1 H2. rewrite P7 by lia. eqb_dec. auto.
      + intros j H1 H2. fs. auto. }
  destruct LD as [w1 [Q0 [Q1 [Q2 [Q3 [Q4 [Q5 [Q6 [Q7 [Q8 [Q9 [Q10 [Q11 [Q12 Q13]]]]]]]]]]]]]]. rewrite (texec_Bs _ _ _ _ Q0). clear Q0. cbn [app].
  rewrite (tex_EvoR _ _ _ _ (left_env ts i) (right_env ts (N - (i + 2))) (ts i) (ts (i + 1)) a b); auto; try lia; [|rewrite Q1; auto].
  set (ts1 := fset (fset ts i a) (i + 1) b).
  assert (EL1 : forall n, n <= i -> left_env ts1 n = left_env ts n) by (intros n Hn; apply left_env_ext; intros j Hj; unfold ts1; fs; auto).
  assert (ER1 : forall n, n <= N - 2 - i -> right_env ts1 n = right_env ts n) by (intros n Hn; apply right_env_ext; [lia|]; intros j Hj; unfold ts1; fs; auto).
  assert (EN1 : left_env ts1 (S i) = grow L i (left_env ts i) a) by (cbn [SweepSpec.left_env]; rewrite EL1 by lia; f_equal; unfold ts1; fs; auto).
  set (b2 := back (i + 1) (- tau / 2)%Q (left_env ts1 (i + 1)) (ts1 (i + 1)) (right_env ts1 (N - 1 - (i + 1)))).
  assert (EB : b2 = back (i + 1) (bwd_time tau) (grow L i (left_env ts i) a) b (right_env ts (N - (i + 2)))).
  { unfold b2, bwd_time. rewrite <- EN1. replace (N - 1 - (i + 1)) with (N - (i + 2)) by lia. rewrite ER1 by lia. replace (i + 1) with (S i) by lia. f_equal. unfold ts1. fs. auto. }
  rewrite (tex_Back _ _ _ _ (grow L i (left_env ts i) a) (right_env ts (N - (i + 2))) b); fs; auto; try lia; [|rewrite Q1; replace (N - (i + 1) - 1) with (N - (i + 2)) by lia; fs; auto].
  rewrite <- EB.
  match goal with |- context [texec _ ?x] => set (w2 := x) end.
  assert (DD : exists w3, exec (dump_right N i) w2 = Ok w3 /\ rpoint (fset ts1 (i + 1) b2) (S i) w3 /\ tmp w3 = tmp w).
  { unfold dump_right, w2. rewrite ex_FreeE; [|cbn; lia]. rewrite ex_FreeE; [|cbn; lia].
    rewrite (ex_DumpM _ _ _ _ _ _ _ _ _ _ _ _ _ _ _ a); [|cbn; lia|fs; auto].
    rewrite (ex_DumpE _ _ _ _ _ _ _ _ _ _ _ _ _ _ _ (grow L i (left_env ts i) a)); [|cbn; lia|fs; auto].
    set (ts' := fset ts1 (i + 1) b2).
    assert (EL : forall n, n <= i -> left_env ts' n = left_env ts n) by (intros n Hn; rewrite <- EL1 by lia; apply left_env_ext; intros j Hj; unfold ts'; fs; auto).
    assert (ER : forall n, n <= N - 2 - i -> right_env ts' n = right_env ts n) by (intros n Hn; rewrite <- ER1 by lia; apply right_env_ext; [lia|]; intros j Hj; unfold ts'; fs; auto).
    assert (EN : left_env ts' (S i) = grow L i (left_env ts i) a) by (rewrite <- EN1; apply left_env_ext; intros j Hj; unfold ts'; fs; auto).
    assert (RM : rmem (S i) = i + 1) by (unfold rmem; simpl; lia).
    eexists. split; [reflexivity|]. split; [|fs; auto]. constructor; fs; auto.
    - intros j Hj. rewrite RM. fcase; subst; auto; try (unfold ts', ts1; fs; auto).
    - intros j Hj HN. rewrite RM in HN. unfold ts', ts1. fcase; subst; auto. rewrite Q6. unfold rmem in P4. apply P4; auto. destruct (Nat.eqb_spec i 0); lia.
    - intros n Hn. rewrite ER by lia. apply Q8. lia.
    - intros n Hn. fcase.
      + subst n. replace (i + 1) with (S i) by lia. rewrite EN. auto.
      + rewrite EL by lia. rewrite Q7. apply P6. lia.
    - intros j Hj. replace (0 <? S i) with true by auto. rewrite andb_true_r. fcase; subst; auto. rewrite EN. auto.
    - intros j Hj. fcase; auto. }
  destruct DD as [w3 [D1 [D2 D3]]]. exists w3. rewrite (texec_Bs _ _ _ _ D1). auto.
Qed.
Lemma tstep_left_ok : forall tau ts i w q, 1 < i < N -> lpoint ts i w -> exists w', texec (tstep_left N tau i ++ q) w = texec q w' /\
  lpoint (fold_left evolve (subs (tstep_left N tau i)) ts) (i - 1) w' /\ tmp w' = tmp w.
Proof.
  intros tau ts i w q HI [P1 P2 P3 P4 P5 P6 P7 P8]. rewrite subs_left. cbn [fold_left].
  set (t := (if i =? N - 1 then (tau * 2)%Q else tau)).
  unfold evolve at 2, TdvpSpec.evolve. replace (i - 1 + 1) with i by lia. replace (N - (i - 1 + 2)) with (N - 1 - i) by lia.
  destruct (evo false (i - 1) (fwd_time t) (left_env ts (i - 1)) (ts (i - 1)) (ts i) (right_env ts (N - 1 - i))) as [a b] eqn:ES.
  unfold tstep_left. fold t. rewrite <- !app_assoc.
  assert (LD : exists w1, exec (load_left N i) w = Ok w1 /\ nm w1 = N /\ ne w1 = N - 1 /\
    mm w1 (i - 1) = Some (ts (i - 1)) /\ mm w1 i = Some (ts i) /\ (forall j, j < N -> j <> i - 1 -> j <> i -> mm w1 j = None) /\
    dm w1 = dm w /\ dr w1 = dr w /\ (forall n, n < i - 1 -> dl w1 n = Some (left_env ts n)) /\
    le w1 (i - 1) = Some (left_env ts (i - 1)) /\ (forall j, j < N - 1 -> j <> i - 1 -> le w1 j = None) /\
    re w1 (N - 1 - i) = Some (right_env ts (N - 1 - i)) /\ (forall j, j < N - 1 -> j <> N - 1 - i -> re w1 j = None) /\ tmp w1 = tmp w).
  { unfold load_left. destruct (Nat.eqb_spec i (N - 1)) as [EI|NI].
    - assert (LM : lmem i = i - 1) by (unfold TwoSiteFacts.lmem; eqb_dec; lia).
      rewrite (ex_LoadM _ _ _ _ _ _ _ _ _ _ _ _ _ _ (ts i)); [|lia|apply P4; [lia|]; rewrite LM; lia].
      rewrite (ex_LoadE _ _ _ _ _ _ _ _ _ _ _ _ _ _ _ (right_env ts 0)); [|cbn; lia|fs; apply P5; lia].
      rewrite ex_RmE. eexists. split; [reflexivity|]. fs. repeat split; auto.
      + rewrite P3 by lia. rewrite LM. eqb_dec. auto.
      + intros j H1 H2 H3. fs. rewrite P3 by lia. rewrite LM. eqb_dec. auto.
      + intros n Hn. fs. apply P6. lia.
      + rewrite P7 by lia. eqb_dec. simpl. do 2 f_equal. lia.
      + intros j H1 H2. rewrite P7 by lia. eqb_dec. auto.
      + replace (N - 1 - i) with 0 by lia. auto.
      + intros j H1 H2. fs. rewrite P8 by lia. replace (i <? N - 1) with false by (symmetry; apply Nat.ltb_ge; lia). rewrite andb_false_r. auto.
    - assert (LM : lmem i = i) by (unfold TwoSiteFacts.lmem; eqb_dec; lia).
      rewrite (ex_LoadM _ _ _ _ _ _ _ _ _ _ _ _ _ _ (ts (i - 1))); [|lia|apply P4; [lia|]; rewrite LM; lia].
      rewrite (ex_LoadE _ _ _ _ _ _ _ _ _ _ _ _ _ _ _ (left_env ts (i - 1))); [|cbn; lia|fs; apply P6; lia].
      rewrite ex_RmE. eexists. split; [reflexivity|]. fs. repeat split; auto.
      + rewrite P3 by lia. rewrite LM. eqb_dec. auto.
      + intros j H1 H2 H3. fs. rewrite P3 by lia. rewrite LM. eqb_dec. auto.
      + intros n Hn. fs. apply P6. lia.
      + intros j H1 H2. fs. rewrite P7 by lia. eqb_dec. auto.
      + rewrite P8 by lia. eqb_dec. replace (i <? N - 1) with true by (symmetry; apply Nat.ltb_lt; lia). auto.
      + intros j H1 H2. rewrite P8 by lia. eqb_dec. auto. }
  destruct LD as [w1 [Q0 [Q1 [Q2 [Q3 [Q4 [Q5 [Q6 [Q7 [Q8 [Q9 [Q10 [Q11 [Q12 Q13]]]]]]]]]]]]]]. rewrite (texec_Bs _ _ _ _ Q0). clear Q0. cbn [app].
  rewrite (tex_EvoL _ _ _ _ (left_env ts (i - 1)) (right_env ts (N - 1 - i)) (ts (i - 1)) (ts i) a b); auto; try lia;
    [|rewrite Q1; replace (N - (i - 1 + 2)) with (N - 1 - i) by lia; auto|replace (i - 1 + 1) with i by lia; auto].
  replace (i - 1 + 1) with i by lia. rewrite Q1.
  set (ts1 := fset (fset ts (i - 1) a) i b).
  assert (EL1 : forall n, n <= i - 1 -> left_env ts1 n = left_env ts n) by (intros n Hn; apply left_env_ext; intros j Hj; unfold ts1; fs; auto).
  assert (ER1 : forall n, n <= N - 1 - i -> right_env ts1 n = right_env ts n) by (intros n Hn; apply right_env_ext; [lia|]; intros j Hj; unfold ts1; fs; auto).
  assert (EN1 : right_env ts1 (N - i) = grow R i (right_env ts (N - 1 - i)) b).
  { replace (N - i) with (S (N - 1 - i)) by lia. cbn [SweepSpec.right_env]. rewrite ER1 by lia. replace (N - 1 - (N - 1 - i)) with i by lia. f_equal. unfold ts1; fs; auto. }
  set (a2 := back (i - 1) (- tau / 2)%Q (left_env ts1 (i - 1)) (ts1 (i - 1)) (right_env ts1 (N - 1 - (i - 1)))).
  assert (EB : a2 = back (i - 1) (bwd_time tau) (left_env ts (i - 1)) a (grow R i (right_env ts (N - 1 - i)) b)).
  { unfold a2, bwd_time. replace (N - 1 - (i - 1)) with (N - i) by lia. rewrite EN1, EL1 by lia. f_equal. unfold ts1. fs. auto. }
  rewrite (tex_Back _ _ _ _ (left_env ts (i - 1)) (grow R i (right_env ts (N - 1 - i)) b) a); fs; auto; try lia.
  rewrite <- EB.
  match goal with |- context [texec _ ?x] => set (w2 := x) end.
  assert (DD : exists w3, exec (dump_left N i) w2 = Ok w3 /\ lpoint (fset ts1 (i - 1) a2) (i - 1) w3 /\ tmp w3 = tmp w).
  { unfold dump_left, w2. rewrite ex_FreeE; [|cbn; lia]. rewrite ex_FreeE; [|cbn; lia].
    rewrite (ex_DumpM _ _ _ _ _ _ _ _ _ _ _ _ _ _ _ b); [|cbn; lia|fs; auto].
    rewrite (ex_DumpE _ _ _ _ _ _ _ _ _ _ _ _ _ _ _ (grow R i (right_env ts (N - 1 - i)) b)); [|cbn; lia|fs; auto].
    set (ts' := fset ts1 (i - 1) a2).
    assert (EL : forall n, n <= i - 1 -> left_env ts' n = left_env ts n) by (intros n Hn; rewrite <- EL1 by lia; apply left_env_ext; intros j Hj; unfold ts'; fs; auto).
    assert (ER : forall n, n <= N - 1 - i -> right_env ts' n = right_env ts n) by (intros n Hn; rewrite <- ER1 by lia; apply right_env_ext; [lia|]; intros j Hj; unfold ts'; fs; auto).
    assert (EN : right_env ts' (N - i) = grow R i (right_env ts (N - 1 - i)) b) by (rewrite <- EN1; apply right_env_ext; [lia|]; intros j Hj; unfold ts'; fs; auto).
    assert (LM : lmem (i - 1) = i - 1) by (unfold TwoSiteFacts.lmem; eqb_dec; lia).
    assert (RI : N - 1 - (i - 1) = N - i) by lia.
    eexists. split; [reflexivity|]. split; [|fs; auto]. constructor; fs; auto; rewrite ?RI.
    - intros j Hj. rewrite LM. fcase; subst; auto; try (unfold ts', ts1; fs; auto).
    - intros j Hj HN. rewrite LM in HN. unfold ts', ts1. fcase; try subst j; auto. rewrite Q6. apply P4; auto. unfold TwoSiteFacts.lmem. destruct (Nat.eqb_spec i (N - 1)); lia.
    - intros n Hn. fcase.
      + subst n. rewrite EN. auto.
      + rewrite ER by lia. rewrite Q7. apply P5. lia.
    - intros n Hn. rewrite EL by lia. apply Q8. lia.
    - intros j Hj. replace (i - 1 =? N - 1) with false by (symmetry; apply Nat.eqb_neq; lia). rewrite andb_false_r. fcase; auto. apply Q10; lia.
    - intros j Hj. replace (i - 1 <? N - 1) with true by (symmetry; apply Nat.ltb_lt; lia). rewrite andb_true_r. fcase; rewrite ?EN; auto. apply Q12; lia. }
  destruct DD as [w3 [D1 [D2 D3]]]. exists w3. rewrite (texec_Bs _ _ _ _ D1). auto.
Qed.
Lemma trights_ok : forall tau k i ts w q, i + k = N - 2 -> rpoint ts i w -> exists w', texec (flat_map (tstep_right N tau) (seq i k) ++ q) w = texec q w' /\
  rpoint (fold_left evolve (subs (flat_map (tstep_right N tau) (seq i k))) ts) (N - 2) w' /\ tmp w' = tmp w.
Proof.
  induction k as [|k IH]; intros i ts w q HK HP.
  - cbn. exists w. replace (N - 2) with i by lia. auto.
  - cbn [seq flat_map]. rewrite <- app_assoc. destruct (tstep_right_ok tau ts i w (flat_map (tstep_right N tau) (seq (S i) k) ++ q)) as [w1 [A1 [A2 A3]]]; auto; [lia|].
    rewrite A1. assert (HK' : S i + k = N - 2) by lia. destruct (IH (S i) _ w1 q HK' A2) as [w2 [B1 [B2 B3]]]. exists w2. rewrite B1. rewrite subs_app, fold_left_app.
    split; [reflexivity|]. split; [exact B2|congruence].
Qed.
Lemma tlefts_ok : forall tau k i ts w q, i = k + 1 -> i < N -> lpoint ts i w -> exists w', texec (flat_map (tstep_left N tau) (rev (seq 2 k)) ++ q) w = texec q w' /\
  lpoint (fold_left evolve (subs (flat_map (tstep_left N tau) (rev (seq 2 k)))) ts) 1 w' /\ tmp w' = tmp w.
Proof.
  induction k as [|k IH]; intros i ts w q HK HN HP.
  - cbn. exists w. replace 1 with i by lia. auto.
  - rewrite seq_S, rev_unit. cbn [flat_map]. rewrite <- app_assoc. replace (2 + k) with i by lia.
    destruct (tstep_left_ok tau ts i w (flat_map (tstep_left N tau) (rev (seq 2 k)) ++ q)) as [w1 [A1 [A2 A3]]]; auto; [lia|].
    rewrite A1. assert (HK' : i - 1 = k + 1) by lia. assert (HN' : i - 1 < N) by lia. destruct (IH (i - 1) _ w1 q HK' HN' A2) as [w2 [B1 [B2 B3]]]. exists w2. rewrite B1. rewrite subs_app, fold_left_app.
    split; [reflexivity|]. split; [exact B2|congruence].
Qed.
(** before and after a sweep *)
Record tready (ts : nat -> T) (w : world) : Prop := {
  tr_nm : nm w = N; tr_mm : mem_empty T E unit N w; tr_dm : on_disk T E unit N ts w;
  tr_dr : forall n, n <= N - 2 -> dr w n = Some (right_env ts n); tr_dl : dl w 0 = Some (triv L) }.
Lemma tsweep_ok : forall tau ts w, 3 <= N -> tready ts w -> exists w', texec (tdvp_sweep N tau) w = Ok w' /\ tready (tau_step T E triv grow evo back N tau ts) w' /\ tmp w' = tmp w /\
  (forall j, j < N - 1 -> le w' j = None /\ re w' j = None).
Proof.
  intros tau ts w HN [S1 S2 S3 S4 S5]. unfold tau_step. rewrite <- sweep_schedule by auto. unfold tdvp_sweep.
  assert (LD : exists w0, exec [NewEnvs (N - 1); LoadM 1] w = Ok w0 /\ rpoint ts 0 w0 /\ tmp w0 = tmp w).
  { rewrite ex_NewEnvs. rewrite (ex_LoadM _ _ _ _ _ _ _ _ _ _ _ _ _ _ (ts 1)); [|cbn; lia|apply S3; lia]. eexists. split; [reflexivity|]. split; [|auto]. constructor; fs; auto.
    - intros j Hj. fcase; subst; auto; cbn in *; try lia; try (apply S2; auto).
    - intros n Hn. apply S4. lia.
    - intros n Hn. replace n with 0 by lia. auto.
    - intros j Hj. rewrite andb_false_r. auto. }
  destruct LD as [w0 [L1 [L2 L3]]]. rewrite (texec_Bs _ _ _ _ L1).
  destruct (trights_ok tau (N - 2) 0 ts w0 (flat_map (tstep_left N tau) (rev (seq 2 (N - 2))) ++ map TB [LoadM 0; LoadE L 0] ++ [Evo true 0 tau] ++ map TB [DumpM 0 true; DumpM 1 true; FreeE L 0; FreeE L 1; FreeE R (N - 2)])) as [w1 [A1 [A2 A3]]]; auto.
  rewrite A1. rewrite !subs_app, !subs_TB, !fold_left_app. cbn [fold_left]. set (ts1 := fold_left evolve (subs (flat_map (tstep_right N tau) (seq 0 (N - 2)))) ts) in *. destruct A2 as [P1 P2 P3 P4 P5 P6 P7 P8].
  destruct (tlefts_ok tau (N - 2) (N - 1) ts1 w1 (map TB [LoadM 0; LoadE L 0] ++ [Evo true 0 tau] ++ map TB [DumpM 0 true; DumpM 1 true; FreeE L 0; FreeE L 1; FreeE R (N - 2)])) as [w2 [B1 [B2 B3]]]; auto; [lia|lia| |].
  { unfold rmem in *. replace (N - 2 =? 0) with false in * by (symmetry; apply Nat.eqb_neq; lia).
    constructor; auto; unfold TwoSiteFacts.lmem; rewrite ?Nat.eqb_refl; auto.
    - intros n Hn. apply P5. lia.
    - intros n Hn. apply P6. lia.
    - intros j Hj. rewrite P7 by auto. replace (0 <? N - 2) with true by (symmetry; apply Nat.ltb_lt; lia). replace (N - 1 - 1) with (N - 2) by lia. auto.
    - intros j Hj. rewrite Nat.ltb_irrefl, andb_false_r. auto. }
  rewrite B1. set (ts2 := fold_left evolve (subs (flat_map (tstep_left N tau) (rev (seq 2 (N - 2))))) ts1) in *. destruct B2 as [R1 R2 R3 R4 R5 R6 R7 R8].
  assert (LM : lmem 1 = 1) by (unfold TwoSiteFacts.lmem; destruct (Nat.eqb_spec 1 (N - 1)); lia). rewrite LM in *.
  assert (LE0 : exists w3, exec [LoadM 0; LoadE L 0] w2 = Ok w3 /\ nm w3 = N /\ ne w3 = N - 1 /\ mm w3 0 = Some (ts2 0) /\ mm w3 1 = Some (ts2 1) /\ (forall j, j < N -> 1 < j -> mm w3 j = None) /\
    dm w3 = dm w2 /\ dl w3 = dl w2 /\ dr w3 = dr w2 /\ le w3 0 = Some (triv L) /\ (forall j, j < N - 1 -> 0 < j -> le w3 j = None) /\ re w3 (N - 2) = Some (right_env ts2 (N - 2)) /\ (forall j, j < N - 2 -> re w3 j = None) /\ tmp w3 = tmp w2).
  { rewrite (ex_LoadM _ _ _ _ _ _ _ _ _ _ _ _ _ _ (ts2 0)); [|cbn; lia|apply R4; lia]. rewrite (ex_LoadE _ _ _ _ _ _ _ _ _ _ _ _ _ _ _ (triv L)); [|cbn; lia|fs; rewrite (R6 0) by lia; auto].
    eexists. split; [reflexivity|]. fs. repeat split; auto.
    - rewrite R3 by lia. auto.
    - intros j Hj H1. fs. rewrite R3 by lia. eqb_dec. auto.
    - intros j Hj H1. fs. rewrite R7 by lia. eqb_dec. auto.
    - rewrite R8 by lia. replace (N - 1 - 1) with (N - 2) by lia. rewrite Nat.eqb_refl. replace (1 <? N - 1) with true by (symmetry; apply Nat.ltb_lt; lia). auto.
    - intros j Hj. rewrite R8 by lia. eqb_dec. auto. }
  destruct LE0 as [w3 [G1 [G2 [G3 [G4 [G5 [G6 [G7 [G8 [G9 [G10 [G11 [G12 [G13 G14]]]]]]]]]]]]]]. rewrite (texec_Bs _ _ _ _ G1). cbn [app].
  cbn [subs flat_map app fold_left]. unfold evolve, TdvpSpec.evolve. fold evolve. cbn [SweepSpec.left_env].
  destruct (evo true 0 (fwd_time tau) (triv L) (ts2 0) (ts2 (0 + 1)) (right_env ts2 (N - (0 + 2)))) as [a b] eqn:ES.
  rewrite (tex_EvoR _ _ _ _ (triv L) (right_env ts2 (N - 2)) (ts2 0) (ts2 1) a b); auto; try (cbn; lia); [|rewrite G2; replace (N - (0 + 2)) with (N - 2) by lia; auto].
  rewrite texec_B. rewrite (ex_DumpM _ _ _ _ _ _ _ _ _ _ _ _ _ _ _ a); [|cbn; lia|fs; auto]. rewrite (ex_DumpM _ _ _ _ _ _ _ _ _ _ _ _ _ _ _ b); [|cbn; lia|fs; auto].
  rewrite ex_FreeE; [|cbn; lia]. rewrite ex_FreeE; [|cbn; lia]. rewrite ex_FreeE; [|cbn; lia].
  eexists. split; [reflexivity|]. split; [|split; [fs; congruence|]].
  - constructor; fs; auto.
    + intros j Hj. fcase; auto. apply G6; lia.
    + intros j Hj. fcase; subst; auto. rewrite G7. apply R4; auto.
    + intros n Hn. rewrite G9, R5 by lia. f_equal. apply right_env_ext; [lia|]. intros j Hj. fcase. auto.
    + rewrite G8, (R6 0) by lia. reflexivity.
  - intros j Hj. split; fcase; auto. + apply G11; lia. + apply G13. lia.
Qed.
Lemma sweep_run_ok : forall tau ts w, 3 <= N -> tready ts w -> exists w', sweep_run T E dT dE triv grow canoL canoR evo back dbg tau w = Ok w' /\ tready (tau_step T E triv grow evo back N tau ts) w' /\ tmp w' = tmp w.
Proof.
  intros tau ts w HN HR. assert (HR' : tready ts (set_mm T E unit fnone w)) by (destruct HR; constructor; fs; auto; intros j Hj; reflexivity).
  destruct (tsweep_ok tau ts _ HN HR') as (w' & A1 & [B1 B2 B3 B4 B5] & A3 & _). unfold sweep_run. destruct HR as [R1 R2 R3 R4 R5]. rewrite R1, A1. cbn [bind]. eexists. split; [reflexivity|]. split; [|fs; auto]. constructor; fs; auto.
Qed.
Lemma two_sites_ub : forall tau ts w, N = 2 -> tready ts w -> sweep_run T E dT dE triv grow canoL canoR evo back dbg tau w = Ub.
Proof.
  intros tau ts w HN [S1 S2 S3 S4 S5]. unfold sweep_run. rewrite S1. subst N. unfold tdvp_sweep. cbn [Nat.sub seq flat_map rev app map].
  change (TB (NewEnvs 1) :: TB (LoadM 1) :: TB (LoadM 0) :: TB (LoadE L 0) :: Evo true 0 tau :: [TB (DumpM 0 true); TB (DumpM 1 true); TB (FreeE L 0); TB (FreeE L 1); TB (FreeE R 0)])
    with (map TB [NewEnvs 1; LoadM 1; LoadM 0; LoadE L 0] ++ [Evo true 0 tau; TB (DumpM 0 true); TB (DumpM 1 true); TB (FreeE L 0); TB (FreeE L 1); TB (FreeE R 0)]).
  set (w0 := set_mm T E unit fnone w).
  assert (X : exists w1, exec [NewEnvs 1; LoadM 1; LoadM 0; LoadE L 0] w0 = Ok w1 /\ nm w1 = 2 /\ re w1 0 = None /\ ne w1 = 1 /\ le w1 0 = Some (triv L)).
  { rewrite ex_NewEnvs. rewrite (ex_LoadM _ _ _ _ _ _ _ _ _ _ _ _ _ _ (ts 1)); [|cbn; lia|apply S3; lia]. rewrite (ex_LoadM _ _ _ _ _ _ _ _ _ _ _ _ _ _ (ts 0)); [|cbn; lia|apply S3; lia].
    rewrite (ex_LoadE _ _ _ _ _ _ _ _ _ _ _ _ _ _ _ (triv L)); [|cbn; lia|exact S5]. eexists. split; [reflexivity|]. fs. auto. }
  destruct X as (w1 & X1 & X2 & X3 & X4 & X5). rewrite (texec_Bs _ _ _ _ X1). cbn [Tdvp.texec Tdvp.texec1]. unfold getE, le_. rewrite X4, X2. cbn [bind Nat.ltb Nat.leb Nat.sub Nat.add]. rewrite X5. cbn [bind use]. rewrite X3. reflexivity.
Qed.
End Facts.
