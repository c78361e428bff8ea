(** Memory bound and crash points of the two-site run. *)
From Coq Require Import List Arith Lia Bool.
From Verif Require Import Base Disk SweepSpec DiskFacts TwoSite TwoSiteFacts.
Import ListNotations.

(** *** occupied MPS slots *)
Definition add (i : nat) (o : list nat) : list nat := if existsb (Nat.eqb i) o then o else i :: o.
Definition del (i : nat) (o : list nat) : list nat := filter (fun j => negb (j =? i)) o.
Definition occ (c : instr) (o : list nat) : list nat :=
  match c with
  | LoadM i | DumpM i false => add i o
  | DumpM i true | FreeM i => del i o
  | Upd2 _ l => add (l + 1) (add l o)
  | CanoL i => add (i + 1) (add i o)
  | CanoR i => add i (add (i - 1) o)
  | _ => o
  end.
Fixpoint occs (p : list instr) (o : list nat) : list (list nat) := o :: match p with [] => [] | c :: q => occs q (occ c o) end.
Definition occ_end (p : list instr) (o : list nat) : list nat := fold_left (fun o c => occ c o) p o.
Lemma add_in : forall i o j, In j (add i o) <-> j = i \/ In j o.
Proof.
  intros. unfold add. destruct (existsb (Nat.eqb i) o) eqn:EX; simpl; [|intuition].
  apply existsb_exists in EX. destruct EX as [x [H1 H2]]. apply Nat.eqb_eq in H2. subst. intuition. subst. auto.
Qed.
Lemma del_in : forall i o j, In j (del i o) <-> j <> i /\ In j o.
Proof. intros. unfold del. rewrite filter_In, negb_true_iff, Nat.eqb_neq. intuition. Qed.
Lemma occs_app : forall p q o, Forall (fun x => length x <= 2) (occs p o) -> Forall (fun x => length x <= 2) (occs q (occ_end p o)) -> Forall (fun x => length x <= 2) (occs (p ++ q) o).
Proof.
  induction p as [|c p IH]; intros q o H1 H2; [exact H2|]. cbn [occs app] in *. inversion H1 as [|? ? A B]. constructor; auto.
Qed.
Lemma occs_prefix : forall p q o, Forall (fun x => length x <= 2) (occs (p ++ q) o) -> length (occ_end p o) <= 2.
Proof. induction p as [|c p IH]; intros q o H; [destruct q; exact (Forall_inv H)|]. apply Forall_inv_tail in H. exact (IH q (occ c o) H). Qed.
Lemma occ_end_app : forall p q o, occ_end (p ++ q) o = occ_end q (occ_end p o).
Proof. intros. apply fold_left_app. Qed.

Ltac exb := unfold add; cbn [existsb]; repeat match goal with |- context [?a =? ?b] => first
      [ replace (a =? b) with true by (symmetry; apply Nat.eqb_eq; lia) | replace (a =? b) with false by (symmetry; apply Nat.eqb_neq; lia) ] end; cbn [orb].
Ltac occ_run := cbn [app occs occ]; unfold del; repeat (exb; cbn [filter negb occs occ]; eqb_dec; cbn [filter negb]); repeat (constructor; [simpl; lia|]); constructor.

Lemma occ_right : forall N i, i < N - 2 -> Forall (fun x => length x <= 2) (occs (step_right N i) [rmem i]) /\ occ_end (step_right N i) [rmem i] = [rmem (S i)].
Proof.
  intros N i H. unfold step_right, load_right, dump_right, rmem. destruct (Nat.eqb_spec i 0) as [->|NZ].
  - split; [|reflexivity]. cbn [app occs occ]. unfold add, del. cbn. repeat (constructor; [simpl; lia|]). constructor.
  - split.
    + cbn [app occs occ]. unfold add at 1. cbn [existsb]. repeat (exb; cbn [filter negb del]; eqb_dec). unfold del. cbn [filter]. eqb_dec. cbn [negb]. repeat (constructor; [simpl; lia|]). constructor.
    + unfold occ_end. cbn [app fold_left occ]. repeat (exb; cbn [filter negb del]; eqb_dec). unfold del. cbn [filter]. eqb_dec. cbn [negb]. f_equal. lia.
Qed.
Lemma occ_left : forall N i, 1 < i < N -> Forall (fun x => length x <= 2) (occs (step_left N i) [lmem N i]) /\ occ_end (step_left N i) [lmem N i] = [lmem N (i - 1)].
Proof.
  intros N i H. assert (LM : lmem N (i - 1) = i - 1) by (unfold lmem; eqb_dec; lia). rewrite LM. unfold step_left, load_left, dump_left, lmem. destruct (Nat.eqb_spec i (N - 1)) as [EI|NZ].
  - replace (N - 2) with (i - 1) by lia. split.
    + cbn [app occs occ]. unfold add at 1. cbn [existsb]. repeat (exb; cbn [filter negb del]; eqb_dec). unfold del. cbn [filter]. eqb_dec. cbn [negb]. repeat (constructor; [simpl; lia|]). constructor.
    + unfold occ_end. cbn [app fold_left occ]. repeat (exb; cbn [filter negb del]; eqb_dec). unfold del. cbn [filter]. eqb_dec. cbn [negb]. f_equal.
  - split.
    + cbn [app occs occ]. unfold add at 1. cbn [existsb]. repeat (exb; cbn [filter negb del]; eqb_dec). unfold del. cbn [filter]. eqb_dec. cbn [negb]. repeat (constructor; [simpl; lia|]). constructor.
    + unfold occ_end. cbn [app fold_left occ]. repeat (exb; cbn [filter negb del]; eqb_dec). unfold del. cbn [filter]. eqb_dec. cbn [negb]. f_equal.
Qed.
Lemma occ_rights : forall N k i, i + k = N - 2 -> Forall (fun x => length x <= 2) (occs (flat_map (step_right N) (seq i k)) [rmem i]) /\ occ_end (flat_map (step_right N) (seq i k)) [rmem i] = [rmem (N - 2)].
Proof.
  induction k as [|k IH]; intros i H; cbn [seq flat_map].
  - replace (N - 2) with i by lia. cbn. repeat constructor.
  - destruct (occ_right N i) as [A1 A2]; [lia|]. destruct (IH (S i)) as [B1 B2]; [lia|]. split; [apply occs_app; auto; rewrite A2; auto|]. rewrite occ_end_app, A2. auto.
Qed.
Lemma occ_lefts : forall N k, k + 1 < N -> Forall (fun x => length x <= 2) (occs (flat_map (step_left N) (rev (seq 2 k))) [lmem N (k + 1)]) /\ occ_end (flat_map (step_left N) (rev (seq 2 k))) [lmem N (k + 1)] = [lmem N 1].
Proof.
  induction k as [|k IH]; intros H.
  - cbn. repeat constructor.
  - rewrite seq_S, rev_unit. cbn [flat_map]. destruct (occ_left N (2 + k)) as [A1 A2]; [lia|]. destruct IH as [B1 B2]; [lia|].
    replace (2 + k - 1) with (k + 1) in A2 by lia. replace (S k + 1) with (2 + k) by lia. split; [apply occs_app; auto; rewrite A2; auto|]. rewrite occ_end_app, A2. auto.
Qed.
Lemma occ_sweep : forall N, 3 <= N -> Forall (fun x => length x <= 2) (occs (sweep N) [1]) /\ occ_end (sweep N) [1] = [1].
Proof.
  intros N HN. unfold sweep. destruct (occ_rights N (N - 2) 0) as [A1 A2]; [lia|]. destruct (occ_lefts N (N - 2)) as [B1 B2]; [lia|].
  replace (N - 2 + 1) with (N - 1) in * by lia. unfold lmem in B1, B2 at 1. rewrite Nat.eqb_refl in B1, B2.
  change (rmem 0) with 1 in A1, A2. replace (rmem (N - 2)) with (N - 2) in A2 by (unfold rmem; eqb_dec; auto). replace (lmem N 1) with 1 in B2 by (unfold lmem; eqb_dec; auto). split.
  - cbn [app]. constructor; [simpl; lia|]. apply occs_app; auto. cbn [occ]. rewrite A2. auto.
  - cbn [app]. unfold occ_end. cbn [fold_left occ]. fold (occ_end (flat_map (step_right N) (seq 0 (N - 2)) ++ flat_map (step_left N) (rev (seq 2 (N - 2)))) [1]). rewrite occ_end_app, A2. auto.
Qed.
Lemma occ_sweeps : forall N k, 3 <= N -> Forall (fun x => length x <= 2) (occs (concat (repeat (sweep N) k)) [1]) /\ occ_end (concat (repeat (sweep N) k)) [1] = [1].
Proof.
  intros N k HN. destruct (occ_sweep N HN) as [A1 A2]. induction k as [|k [B1 B2]]; cbn [repeat concat]; [cbn; repeat constructor|].
  split; [apply occs_app; auto; rewrite A2; auto|]. rewrite occ_end_app, A2. auto.
Qed.
Lemma occ_init : forall N usn, 1 <= usn < N -> Forall (fun x => length x <= 2) (occs (init_envs N usn) []) /\ occ_end (init_envs N usn) [] = [].
Proof.
  intros N usn HN. unfold init_envs.
  assert (LOOP : forall k i, 1 < i -> i + k = S (N - usn) -> let p := flat_map (fun i => (if 1 <? i then [LoadM (N - i)] else []) ++ [GrowAcc R (N - i); WriteAcc R i; FreeM (N - i)]) (seq i k) in
    Forall (fun x => length x <= 2) (occs p []) /\ occ_end p [] = []).
  { induction k as [|k IH]; intros i H1 H2; cbn [seq flat_map]; [cbn; repeat constructor|]. destruct (IH (S i)) as [B1 B2]; [lia|lia|].
    replace (1 <? i) with true by (symmetry; apply Nat.ltb_lt; lia). cbn [app] in *.
    unfold occ_end in *. cbn [fold_left occs occ]. cbn [add existsb del filter]. rewrite Nat.eqb_refl. cbn [negb]. split; auto. repeat (constructor; [simpl; lia|]). auto. }
  destruct (N - usn) as [|k] eqn:EK; [lia|]. cbn [seq flat_map]. destruct (LOOP k 2) as [B1 B2]; [lia|lia|]. change (1 <? 1) with false. cbn [app].
  assert (F : Forall (fun x => length x <= 2) (occs [LoadM 0; SetAcc L 0; WriteAcc L 0; FreeM 0; EmptyM] []) /\ occ_end [LoadM 0; SetAcc L 0; WriteAcc L 0; FreeM 0; EmptyM] [] = []) by (split; [cbn; repeat constructor|reflexivity]).
  destruct F as [F1 F2]. set (loop := flat_map (fun i => (if 1 <? i then [LoadM (N - i)] else []) ++ [GrowAcc R (N - i); WriteAcc R i; FreeM (N - i)]) (seq 2 k)) in *.
  split.
  - cbn [app occs occ add existsb del filter]. rewrite Nat.eqb_refl. cbn [negb]. do 6 (constructor; [simpl; lia|]). apply occs_app; auto. rewrite B2. auto.
  - unfold occ_end in *. cbn [fold_left occ add existsb del filter]. rewrite Nat.eqb_refl. cbn [negb]. rewrite fold_left_app, B2. auto.
Qed.
Lemma occ_two_site : forall N k have, 3 <= N -> Forall (fun x => length x <= 2) (occs (two_site N k have) []).
Proof.
  intros N k have HN. unfold two_site. destruct (occ_sweeps N k HN) as [A1 A2]. destruct (occ_init N 2) as [I1 I2]; [lia|].
  assert (F : Forall (fun x => length x <= 2) (occs ([LoadM 1] ++ concat (repeat (sweep N) k) ++ [DumpM 1 true]) [])).
  { cbn [app occs occ add existsb]. constructor; [simpl; lia|]. apply occs_app; auto. rewrite A2. cbn. repeat constructor. }
  apply occs_app; [cbn; repeat constructor|]. destruct have; [exact F|]. apply occs_app.
  - change (Forall (fun x => length x <= 2) ([] :: occs (init_envs N 2) [])). constructor; auto.
  - change (occ_end (Mkdir :: init_envs N 2) (occ_end [EmptyM] [])) with (occ_end (init_envs N 2) []). rewrite I2. exact F.
Qed.

Ltac dstr H := repeat match type of H with
  | Ok _ = Ok _ => injection H as H
  | bind ?e _ = Ok _ => let X := fresh "X" in destruct e eqn:X; cbn [bind] in H; try discriminate H
  | context [if ?b then _ else _] => let X := fresh "X" in destruct b eqn:X; try discriminate H
  | context [match ?b with _ => _ end] => let X := fresh "X" in destruct b eqn:X; try discriminate H
  end.
Section Facts.
Variables T E En : Type.
Variables (dT : T) (dE : E) (triv : side -> E) (grow : side -> nat -> E -> T -> E) (solve : bool -> nat -> E -> T -> T -> E -> T * T * En).
Variables (canoL canoR : T -> T -> T * T).
Variable dbg : bool.
Notation world := (world T E En).
Notation exec := (exec T E En dT dE triv grow solve canoL canoR dbg).
Notation exec1 := (exec1 T E En dT dE triv grow solve canoL canoR dbg).
Notation nm := (nm T E En). Notation mm := (mm T E En). Notation ne := (ne T E En). Notation dm := (dm T E En).
Notation le := (le T E En). Notation re := (re T E En). Notation dl := (dl T E En). Notation dr := (dr T E En).
Notation eng := (eng T E En). Notation acc := (acc T E En). Notation tmp := (tmp T E En).
Definition covers (o : list nat) (w : world) : Prop := forall i t, mm w i = Some t -> In i o.
Lemma putM_mm : forall i t w w', putM T E En i t w = Ok w' -> mm w' = fset (mm w) i (Some t).
Proof. intros i t w w' H. unfold putM in H. destruct (i <? nm w); [|discriminate]. injection H as <-. reflexivity. Qed.
Lemma putE_mm : forall s i t w w', putE T E En s i t w = Ok w' -> mm w' = mm w.
Proof. intros s i t w w' H. unfold putE in H. destruct (i <? ne w); [|discriminate]. injection H as <-. destruct s; reflexivity. Qed.
Lemma covers_set : forall o f i t (w' : world), mm w' = fset f i (Some t) -> (forall j x, f j = Some x -> In j o) -> covers (add i o) w'.
Proof. intros o f i t w' E0 HF j x HJ. rewrite E0 in HJ. apply add_in. unfold fset in HJ. destruct (Nat.eqb_spec j i); [auto|]. right. eauto. Qed.
Lemma occ_ok : forall c o w w', exec1 c w = Ok w' -> covers o w -> covers (occ c o) w'.
Proof.
  intros c o w w' H HC. destruct c; cbn [Disk.exec1 occ] in *.
  - injection H as <-. exact HC.
  - dstr H. subst w'. eapply covers_set; [reflexivity|exact HC].
  - destruct (i <? nm w); [|discriminate]. injection H as <-. destruct rel.
    + intros j x HJ. cbn in HJ. unfold fset in HJ. apply del_in. destruct (Nat.eqb_spec j i); [discriminate|]. split; eauto.
    + eapply covers_set; [reflexivity|exact HC].
  - destruct (i <? nm w); [|discriminate]. injection H as <-. intros j x HJ. cbn in HJ. unfold fset in HJ. apply del_in. destruct (Nat.eqb_spec j i); [discriminate|]. split; eauto.
  - dstr H. subst. exact HC.
  - injection H as <-. exact HC.
  - dstr H. subst w'. destruct s; exact HC.
  - dstr H. subst w'. destruct s; exact HC.
  - dstr H. subst w'. destruct s; exact HC.
  - dstr H. subst w'. destruct s; exact HC.
  - dstr H. subst w'. exact HC.
  - dstr H. subst w'. exact HC.
  - dstr H. subst w'. destruct s; exact HC.
  - destruct (getE T E En L l w) as [el| |]; cbn [bind] in H; try discriminate. destruct (getE T E En R (nm w - (l + 2)) w) as [er| |]; cbn [bind] in H; try discriminate.
    destruct (getM T E En l w) as [a| |]; cbn [bind] in H; try discriminate. destruct (getM T E En (l + 1) w) as [b| |]; cbn [bind] in H; try discriminate.
    destruct (solve rt l el a b er) as [[a' b'] x]. destruct (putM T E En l a' w) as [w1| |] eqn:P1; cbn [bind] in H; try discriminate. destruct (putM T E En (l + 1) b' w1) as [w2| |] eqn:P2; cbn [bind] in H; try discriminate.
    apply putM_mm in P1. apply putM_mm in P2.
    assert (C2 : covers (add (l + 1) (add l o)) w2).
    { eapply covers_set; [exact P2|]. intros j y HJ. rewrite P1 in HJ. unfold fset in HJ. apply add_in. destruct (Nat.eqb_spec j l); [auto|]. right. eauto. }
    destruct rt.
    + destruct (putE T E En L (l + 1) (grow L l el a') w2) as [w3| |] eqn:P3; cbn [bind] in H; try discriminate. apply putE_mm in P3. injection H as <-. intros j y HJ. cbn in HJ. rewrite P3 in HJ. eauto.
    + destruct (putE T E En R (nm w2 - (l + 1)) (grow R (l + 1) er b') w2) as [w3| |] eqn:P3; cbn [bind] in H; try discriminate. apply putE_mm in P3. injection H as <-. intros j y HJ. cbn in HJ. rewrite P3 in HJ. eauto.
  - destruct (getM T E En i w) as [a| |]; cbn [bind] in H; try discriminate. destruct (getM T E En (i + 1) w) as [b| |]; cbn [bind] in H; try discriminate. destruct (canoL a b) as [a' b'].
    destruct (putM T E En i a' w) as [w1| |] eqn:P1; cbn [bind] in H; try discriminate. apply putM_mm in P1. apply putM_mm in H.
    eapply covers_set; [exact H|]. intros j y HJ. rewrite P1 in HJ. unfold fset in HJ. apply add_in. destruct (Nat.eqb_spec j i); [auto|]. right. eauto.
  - destruct (getM T E En (i - 1) w) as [a| |]; cbn [bind] in H; try discriminate. destruct (getM T E En i w) as [b| |]; cbn [bind] in H; try discriminate. destruct (canoR a b) as [a' b'].
    destruct (putM T E En (i - 1) a' w) as [w1| |] eqn:P1; cbn [bind] in H; try discriminate. apply putM_mm in P1. apply putM_mm in H.
    eapply covers_set; [exact H|]. intros j y HJ. rewrite P1 in HJ. unfold fset in HJ. apply add_in. destruct (Nat.eqb_spec j (i - 1)); [auto|]. right. eauto.
Qed.
Lemma occ_end_ok : forall p o w w', exec p w = Ok w' -> covers o w -> covers (occ_end p o) w'.
Proof.
  induction p as [|c p IH]; intros o w w' H HC; simpl in H; [injection H as <-; exact HC|]. destruct (exec1 c w) as [w1| |] eqn:E1; cbn [bind] in H; try discriminate.
  apply (IH (occ c o) w1); auto. eapply occ_ok; eauto.
Qed.
(** at every moment of a run at most two MPS tensors are in memory *)
Lemma peak_ok : forall N k have p q w w', 3 <= N -> two_site N k have = p ++ q -> (forall i, mm w i = None) -> exec p w = Ok w' ->
  exists a b, forall i t, mm w' i = Some t -> i = a \/ i = b.
Proof.
  intros N k have p q w w' HN HP HM HE. pose proof (occ_two_site N k have HN) as HO. rewrite HP in HO. apply occs_prefix in HO.
  assert (HC : covers (occ_end p []) w') by (eapply occ_end_ok; [exact HE|]; intros i t; rewrite HM; discriminate).
  destruct (occ_end p []) as [|a [|b [|? ?]]]; simpl in HO; try lia.
  - exists 0, 0. intros i t Hi. destruct (HC i t Hi).
  - exists a, a. intros i t Hi. destruct (HC i t Hi) as [->|[]]. auto.
  - exists a, b. intros i t Hi. destruct (HC i t Hi) as [->|[->|[]]]; auto.
Qed.

(** *** crashes *)
Lemma exec_prefix : forall p q w w', exec (p ++ q) w = Ok w' -> exists w1, exec p w = Ok w1 /\ exec q w1 = Ok w'.
Proof. intros p q w w' H. rewrite exec_app in H. destruct (exec p w) as [w1| |]; cbn in H; try discriminate. eauto. Qed.
(** instructions that do not create the file of environment (s, n) *)
Definition keeps_absent (s : side) (n : nat) (c : instr) : Prop :=
  match c with DumpE s' m | WriteAcc s' m => s' <> s \/ m <> n | _ => True end.
Lemma putM_de : forall s i t w w', putM T E En i t w = Ok w' -> de_ T E En s w' = de_ T E En s w /\ dm w' = dm w /\ nm w' = nm w.
Proof. intros s i t w w' H. unfold putM in H. destruct (i <? nm w); [|discriminate]. injection H as <-. destruct s; auto. Qed.
Lemma putE_de : forall s s' i t w w', putE T E En s' i t w = Ok w' -> de_ T E En s w' = de_ T E En s w /\ dm w' = dm w /\ nm w' = nm w.
Proof. intros s s' i t w w' H. unfold putE in H. destruct (i <? ne w); [|discriminate]. injection H as <-. destruct s, s'; auto. Qed.
Lemma absent1 : forall s n c w w', keeps_absent s n c -> exec1 c w = Ok w' -> de_ T E En s w n = None -> de_ T E En s w' n = None.
Proof.
  intros s n c w w' HK H HA. destruct c; cbn [Disk.exec1 keeps_absent] in *; try (dstr H; subst w'; destruct s; try (destruct s0); assumption).
  - dstr H. subst w'. destruct s, s0; cbn in *; auto; unfold fset; destruct (Nat.eqb_spec n len); auto; subst; destruct HK; congruence.
  - dstr H. subst w'. destruct s, s0; cbn in *; auto; unfold fset; destruct (Nat.eqb_spec n len); auto.
  - dstr H. subst w'. destruct s, s0; cbn in *; auto; unfold fset; destruct (Nat.eqb_spec n len); auto; subst; destruct HK; congruence.
  - destruct (getE T E En L l w) as [el| |]; cbn [bind] in H; try discriminate. destruct (getE T E En R (nm w - (l + 2)) w) as [er| |]; cbn [bind] in H; try discriminate.
    destruct (getM T E En l w) as [a| |]; cbn [bind] in H; try discriminate. destruct (getM T E En (l + 1) w) as [b| |]; cbn [bind] in H; try discriminate.
    destruct (solve rt l el a b er) as [[a' b'] x]. destruct (putM T E En l a' w) as [w1| |] eqn:P1; cbn [bind] in H; try discriminate. destruct (putM T E En (l + 1) b' w1) as [w2| |] eqn:P2; cbn [bind] in H; try discriminate.
    destruct (putM_de s _ _ _ _ P1) as [D1 _]. destruct (putM_de s _ _ _ _ P2) as [D2 _].
    destruct rt.
    + destruct (putE T E En L (l + 1) (grow L l el a') w2) as [w3| |] eqn:P3; cbn [bind] in H; try discriminate. destruct (putE_de s _ _ _ _ _ P3) as [D3 _]. injection H as <-. rewrite <- HA, <- D1, <- D2, <- D3. destruct s; auto.
    + destruct (putE T E En R (nm w2 - (l + 1)) (grow R (l + 1) er b') w2) as [w3| |] eqn:P3; cbn [bind] in H; try discriminate. destruct (putE_de s _ _ _ _ _ P3) as [D3 _]. injection H as <-. rewrite <- HA, <- D1, <- D2, <- D3. destruct s; auto.
  - destruct (getM T E En i w) as [a| |]; cbn [bind] in H; try discriminate. destruct (getM T E En (i + 1) w) as [b| |]; cbn [bind] in H; try discriminate. destruct (canoL a b) as [a' b'].
    destruct (putM T E En i a' w) as [w1| |] eqn:P1; cbn [bind] in H; try discriminate. destruct (putM_de s _ _ _ _ P1) as [D1 _]. destruct (putM_de s _ _ _ _ H) as [D2 _]. congruence.
  - destruct (getM T E En (i - 1) w) as [a| |]; cbn [bind] in H; try discriminate. destruct (getM T E En i w) as [b| |]; cbn [bind] in H; try discriminate. destruct (canoR a b) as [a' b'].
    destruct (putM T E En (i - 1) a' w) as [w1| |] eqn:P1; cbn [bind] in H; try discriminate. destruct (putM_de s _ _ _ _ P1) as [D1 _]. destruct (putM_de s _ _ _ _ H) as [D2 _]. congruence.
Qed.
Lemma absent_all : forall s n p w w', Forall (keeps_absent s n) p -> exec p w = Ok w' -> de_ T E En s w n = None -> de_ T E En s w' n = None.
Proof.
  induction p as [|c p IH]; intros w w' HF H HA; simpl in H; [injection H as <-; auto|]. destruct (exec1 c w) as [w1| |] eqn:E1; cbn [bind] in H; try discriminate.
  apply (IH w1); auto; [exact (Forall_inv_tail HF)|]. eapply absent1; eauto. exact (Forall_inv HF).
Qed.
(** MPS files are never removed, and the directory and the size stay *)
Definition disk_kept (w w' : world) : Prop := nm w' = nm w /\ (tmp w = true -> tmp w' = true) /\ forall i, dm w i <> None -> dm w' i <> None.
Lemma kept1 : forall c w w', exec1 c w = Ok w' -> disk_kept w w'.
Proof.
  assert (PM : forall i t w w', putM T E En i t w = Ok w' -> dm w' = dm w /\ nm w' = nm w /\ tmp w' = tmp w) by (intros i t w w' H; unfold putM in H; destruct (i <? nm w); [|discriminate]; injection H as <-; auto).
  assert (PE : forall s i t w w', putE T E En s i t w = Ok w' -> dm w' = dm w /\ nm w' = nm w /\ tmp w' = tmp w) by (intros s i t w w' H; unfold putE in H; destruct (i <? ne w); [|discriminate]; injection H as <-; destruct s; auto).
  intros c w w' H. destruct c; cbn [Disk.exec1] in *; try (dstr H; subst w'; try destruct s; repeat split; auto; fail).
  - dstr H; subst w'; (split; [auto|]; split; [auto|]; intros j HJ; cbn; unfold fset; destruct (Nat.eqb_spec j i); [discriminate|auto]).
  - destruct (getE T E En L l w) as [el| |]; cbn [bind] in H; try discriminate. destruct (getE T E En R (nm w - (l + 2)) w) as [er| |]; cbn [bind] in H; try discriminate.
    destruct (getM T E En l w) as [a| |]; cbn [bind] in H; try discriminate. destruct (getM T E En (l + 1) w) as [b| |]; cbn [bind] in H; try discriminate.
    destruct (solve rt l el a b er) as [[a' b'] x]. destruct (putM T E En l a' w) as [w1| |] eqn:P1; cbn [bind] in H; try discriminate. destruct (putM T E En (l + 1) b' w1) as [w2| |] eqn:P2; cbn [bind] in H; try discriminate.
    destruct (PM _ _ _ _ P1) as [A1 [A2 A3]]. destruct (PM _ _ _ _ P2) as [B1 [B2 B3]].
    assert (G : exists w3, dm w3 = dm w2 /\ nm w3 = nm w2 /\ tmp w3 = tmp w2 /\ w' = set_eng T E En (Some x) w3).
    { destruct rt; [destruct (putE T E En L (l + 1) (grow L l el a') w2) as [w3| |] eqn:P3|destruct (putE T E En R (nm w2 - (l + 1)) (grow R (l + 1) er b') w2) as [w3| |] eqn:P3]; cbn [bind] in H; try discriminate;
      injection H as <-; destruct (PE _ _ _ _ _ P3) as [C1 [C2 C3]]; exists w3; auto. }
    destruct G as [w3 [C1 [C2 [C3 ->]]]]. split; [cbn; congruence|]. split; [cbn; congruence|]. cbn. intros j. congruence.
  - destruct (getM T E En i w) as [a| |]; cbn [bind] in H; try discriminate. destruct (getM T E En (i + 1) w) as [b| |]; cbn [bind] in H; try discriminate. destruct (canoL a b) as [a' b'].
    destruct (putM T E En i a' w) as [w1| |] eqn:P1; cbn [bind] in H; try discriminate. destruct (PM _ _ _ _ P1) as [A1 [A2 A3]]. destruct (PM _ _ _ _ H) as [B1 [B2 B3]]. split; [congruence|]. split; congruence.
  - destruct (getM T E En (i - 1) w) as [a| |]; cbn [bind] in H; try discriminate. destruct (getM T E En i w) as [b| |]; cbn [bind] in H; try discriminate. destruct (canoR a b) as [a' b'].
    destruct (putM T E En (i - 1) a' w) as [w1| |] eqn:P1; cbn [bind] in H; try discriminate. destruct (PM _ _ _ _ P1) as [A1 [A2 A3]]. destruct (PM _ _ _ _ H) as [B1 [B2 B3]]. split; [congruence|]. split; congruence.
Qed.
Lemma kept_all : forall p w w', exec p w = Ok w' -> disk_kept w w'.
Proof.
  induction p as [|c p IH]; intros w w' H; simpl in H; [injection H as <-; repeat split; auto|]. destruct (exec1 c w) as [w1| |] eqn:E1; cbn [bind] in H; try discriminate.
  destruct (kept1 _ _ _ E1) as [A1 [A2 A3]]. destruct (IH _ _ H) as [B1 [B2 B3]]. split; [congruence|]. split; auto.
Qed.
(** a new run in a directory where the first environments are missing throws at once *)
Lemma restart_fails : forall N k w, 3 <= N -> nm w = N -> tmp w = true -> dm w 0 <> None -> dm w 1 <> None -> dr w (N - 2) = None \/ dl w 0 = None ->
  run_two_site T E En dT dE triv grow solve canoL canoR dbg (S k) (crash T E En w) = Abort.
Proof.
  intros N k w HN H1 H2 H3 H4 H5. unfold run_two_site. cbn [crash Disk.nm Disk.tmp]. rewrite H1, H2. unfold two_site. cbn [app].
  rewrite ex_EmptyM; [|cbn; auto]. destruct (dm w 1) as [t1|] eqn:D1; [|congruence]. destruct (dm w 0) as [t0|] eqn:D0; [|congruence].
  rewrite (ex_LoadM _ _ _ _ _ _ _ _ _ _ _ _ _ _ t1); [|cbn; lia|exact D1].
  cbn [repeat concat]. unfold sweep at 1. cbn [app]. rewrite ex_NewEnvs. replace (N - 2) with (S (N - 3)) at 1 by lia. cbn [seq flat_map]. unfold step_right at 1, load_right. rewrite Nat.eqb_refl. cbn [app].
  rewrite (ex_LoadM _ _ _ _ _ _ _ _ _ _ _ _ _ _ t0); [|cbn; lia|exact D0].
  destruct (dr w (N - 2)) as [er|] eqn:DR.
  - rewrite (ex_LoadE _ _ _ _ _ _ _ _ _ _ _ _ _ _ _ er); [|cbn; lia|exact DR]. rewrite ex_RmE. destruct H5 as [H5|H5]; [discriminate|].
    cbn [Disk.exec]. cbn [Disk.exec1]. rewrite ltb_t by (cbn; lia). cbn [de_ set_de set_e set_mm set_eng dl crash]. rewrite H5. reflexivity.
  - cbn [Disk.exec]. cbn [Disk.exec1]. rewrite ltb_t by (cbn; lia). cbn [de_ set_mm set_eng dr crash Nat.add]. rewrite DR. reflexivity.
Qed.

Ltac fk := repeat first [apply Forall_nil | apply Forall_cons; [first [exact I | left; discriminate | right; lia]|]].
Variable N : nat.
Notation startable := (startable T E En triv grow N).
Notation prelude := (prelude N).
Notation sspec := (sweeps_spec T E En triv grow solve N 0 (N - 1)).
Lemma sweep_head : 3 <= N -> exists M, sweep N = [NewEnvs (N - 1); LoadM 0; LoadE R (N - 2); RmE R (N - 2)] ++ M ++ [DumpE R (N - 2)] /\ Forall (keeps_absent R (N - 2)) M.
Proof.
  intros HN. unfold sweep.
  replace (flat_map (step_right N) (seq 0 (N - 2))) with (step_right N 0 ++ flat_map (step_right N) (seq 1 (N - 3))) by (replace (N - 2) with (S (N - 3)) by lia; reflexivity).
  replace (flat_map (step_left N) (rev (seq 2 (N - 2)))) with (flat_map (step_left N) (rev (seq 3 (N - 3))) ++ step_left N 2)
    by (replace (N - 2) with (S (N - 3)) by lia; change (rev (seq 2 (S (N - 3)))) with (rev (seq 3 (N - 3)) ++ [2]); rewrite flat_map_app; cbn [flat_map]; rewrite app_nil_r; reflexivity).
  unfold step_right at 1, load_right. rewrite Nat.eqb_refl. cbn [Nat.add app].
  exists ([LoadE L 0] ++ [Upd2 true 0] ++ dump_right N 0 ++ flat_map (step_right N) (seq 1 (N - 3)) ++ flat_map (step_left N) (rev (seq 3 (N - 3))) ++
    load_left N 2 ++ [Upd2 false 1; FreeE L 1; FreeE R (N - 3); DumpM 2 true]). split.
  - cbn [app]. do 4 f_equal. unfold step_left at 2, dump_left. rewrite <- !app_assoc. cbn [app]. reflexivity.
  - assert (RG : forall l, Forall (keeps_absent R (N - 2)) (flat_map (step_right N) l)).
    { induction l as [|i l IH]; cbn [flat_map]; [constructor|]. apply Forall_app. split; auto. unfold step_right, load_right, dump_right. destruct (i =? 0); cbn [app]; fk. }
    assert (LG : forall l, (forall i, In i l -> 2 < i < N) -> Forall (keeps_absent R (N - 2)) (flat_map (step_left N) l)).
    { induction l as [|i l IH]; intros HI; cbn [flat_map]; [constructor|]. apply Forall_app. split; [|apply IH; intros; apply HI; simpl; auto]. pose proof (HI i (or_introl eq_refl)).
      unfold step_left, load_left, dump_left. destruct (i =? N - 1); cbn [app]; fk. }
    cbn [app]. fk. apply Forall_app. split; [apply (RG (seq 1 (N - 3)))|]. apply Forall_app. split.
    + apply LG. intros i Hi. apply in_rev, in_seq in Hi. lia.
    + apply Forall_app. split; [unfold load_left; destruct (2 =? N - 1); fk|fk].
Qed.
(** after any number of complete sweeps *)
Lemma after_sweeps : forall ts w j, 3 <= N -> startable ts w -> exists w', exec (prelude (tmp w) ++ concat (repeat (sweep N) j)) (set_eng T E En None w) = Ok w' /\
  spoint T E En triv grow N (fst (sspec j (ts, None))) w' /\ tmp w' = true.
Proof.
  intros ts w j HN HS. destruct (prelude_ok T E En dT dE triv grow solve canoL canoR dbg N ts w HN HS) as [w1 [A1 [A2 [A3 A4]]]].
  rewrite (exec_app_ok _ _ _ _ _ _ _ _ _ _ _ _ _ _ _ A1).
  destruct (sweeps_ok T E En dT dE triv grow solve canoL canoR dbg N j ts None w1 [] HN A2 A3) as [w2 [B1 [B2 [B3 B4]]]]. rewrite app_nil_r in B1. exists w2. rewrite B1. cbn. split; auto. split; auto. congruence.
Qed.
(** crash inside a sweep, after the first environment file was removed: the next run always throws *)
Theorem crash_in_sweep : forall ts w j p q k, 3 <= N -> startable ts w -> sweep N = p ++ q -> 4 <= length p -> q <> [] ->
  exists w', exec (prelude (tmp w) ++ concat (repeat (sweep N) j) ++ p) (set_eng T E En None w) = Ok w' /\
    run_two_site T E En dT dE triv grow solve canoL canoR dbg (S k) (crash T E En w') = Abort.
Proof.
  intros ts w j p q k HN HS HP HL HQ. destruct (after_sweeps ts w j HN HS) as [w1 [A1 [A2 A3]]]. rewrite app_assoc.
  rewrite (exec_app_ok _ _ _ _ _ _ _ _ _ _ _ _ _ _ _ A1).
  destruct (sweep_ok T E En dT dE triv grow solve canoL canoR dbg N _ _ w1 [] HN A2 eq_refl) as [w2 [B1 _]]. rewrite app_nil_r, HP in B1. cbn in B1.
  destruct (exec_prefix p q w1 w2 B1) as [w3 [C1 C2]]. exists w3. split; auto.
  destruct (kept_all _ _ _ C1) as [K1 [K2 K3]]. destruct A2 as [P1 P2 P3 P4 P5].
  apply (restart_fails N); auto; try congruence.
  - apply K3. rewrite P3 by lia. discriminate.
  - (* file of site 1 *) apply K3. clear - A1 HS HN P1. destruct (kept_all _ _ _ A1) as [_ [_ K]]. apply K. destruct HS as [_ [_ [HD _]]]. cbn. rewrite HD by lia. discriminate.
  - left. destruct (sweep_head HN) as [M [S1 S2]]. rewrite S1 in HP.
    assert (PM : exists M1 M2, p = [NewEnvs (N - 1); LoadM 0; LoadE R (N - 2); RmE R (N - 2)] ++ M1 /\ M = M1 ++ M2).
    { do 4 (destruct p as [|? p]; [simpl in HL; lia|]). cbn [app] in HP. injection HP as <- <- <- <- HP. destruct (exists_last HQ) as [q' [z ->]]. rewrite app_assoc in HP. apply app_inj_tail in HP. destruct HP as [HP _]. exists p, q'. auto. }
    destruct PM as [M1 [M2 [-> ->]]]. apply Forall_app in S2. destruct S2 as [S2 _].
    change ([NewEnvs (N - 1); LoadM 0; LoadE R (N - 2); RmE R (N - 2)] ++ M1) with ([NewEnvs (N - 1); LoadM 0; LoadE R (N - 2)] ++ RmE R (N - 2) :: M1) in C1.
    destruct (exec_prefix _ _ _ _ C1) as [w4 [D1 D2]]. rewrite ex_RmE in D2.
    apply (absent_all R (N - 2) M1 _ w3 S2 D2). cbn. rewrite fset_same. auto.
Qed.
(** crash between sweeps (before the next removal): the next run starts from a chain whose site 1 is an old version *)
Theorem crash_between_sweeps : forall ts w j p q, 3 <= N -> startable ts w -> sweep N = p ++ q -> length p < 4 ->
  let ts_j := fst (sspec j (ts, None)) in
  exists w' t1, exec (prelude (tmp w) ++ concat (repeat (sweep N) j) ++ p) (set_eng T E En None w) = Ok w' /\
    dm w' 1 = Some t1 /\ startable (fset ts_j 1 t1) (crash T E En w').
Proof.
  intros ts w j p q HN HS HP HL ts_j. destruct (after_sweeps ts w j HN HS) as [w1 [A1 [A2 A3]]]. rewrite app_assoc.
  rewrite (exec_app_ok _ _ _ _ _ _ _ _ _ _ _ _ _ _ _ A1).
  destruct (sweep_ok T E En dT dE triv grow solve canoL canoR dbg N _ _ w1 [] HN A2 eq_refl) as [w2 [B1 _]]. rewrite app_nil_r, HP in B1. cbn in B1.
  destruct (exec_prefix p q w1 w2 B1) as [w3 [C1 C2]]. exists w3.
  assert (SAME : dm w3 = dm w1 /\ dl w3 = dl w1 /\ dr w3 = dr w1 /\ nm w3 = nm w1 /\ tmp w3 = tmp w1).
  { destruct (sweep_head HN) as [M [S1 _]]. rewrite S1 in HP. cbn [app] in HP.
    assert (G1 : forall c v v', exec1 c v = Ok v' -> (exists n, c = NewEnvs n) \/ (exists i, c = LoadM i) \/ (exists s n, c = LoadE s n) -> dm v' = dm v /\ dl v' = dl v /\ dr v' = dr v /\ nm v' = nm v /\ tmp v' = tmp v).
    { intros c v v' H [[n ->]|[[i ->]|[s [n ->]]]]; cbn [Disk.exec1] in H; dstr H; subst v'; try destruct s; auto. }
    assert (G : forall l v v', exec l v = Ok v' -> Forall (fun c => (exists n, c = NewEnvs n) \/ (exists i, c = LoadM i) \/ (exists s n, c = LoadE s n)) l -> dm v' = dm v /\ dl v' = dl v /\ dr v' = dr v /\ nm v' = nm v /\ tmp v' = tmp v).
    { induction l as [|c l IH]; intros v v' H HF; simpl in H; [injection H as <-; auto|]. destruct (exec1 c v) as [v1| |] eqn:E1; cbn [bind] in H; try discriminate.
      destruct (G1 _ _ _ E1 (Forall_inv HF)) as [X1 [X2 [X3 [X4 X5]]]]. destruct (IH _ _ H (Forall_inv_tail HF)) as [Y1 [Y2 [Y3 [Y4 Y5]]]]. repeat split; congruence. }
    apply (G p w1 w3 C1). destruct p as [|c1 [|c2 [|c3 [|c4 p]]]]; simpl in HL; try lia; cbn [app] in HP; [constructor|injection HP as <- HP|injection HP as <- <- HP|injection HP as <- <- <- HP]; repeat (constructor; [eauto 6|]); constructor. }
  destruct SAME as [M1 [M2 [M3 [M4 M5]]]]. destruct A2 as [P1 P2 P3 P4 P5].
  assert (D1 : dm w1 1 <> None). { destruct (kept_all _ _ _ A1) as [_ [_ K]]. apply K. destruct HS as [_ [_ [HD _]]]. cbn. rewrite HD by lia. discriminate. }
  destruct (dm w1 1) as [t1|] eqn:DE; [|congruence]. exists t1. split; auto. split; [congruence|]. repeat split; cbn; auto.
  - congruence.
  - intros i Hi. cbn. rewrite M1. fcase; [subst; auto|]. apply P3; auto.
  - intros n Hn. cbn. rewrite M3, P4 by auto. f_equal. apply right_env_ext; [lia|]. intros i Hi. fs. auto.
  - rewrite M2. auto.
Qed.
(** crash while the first run is still creating the environments *)
Theorem crash_in_init : forall ts w p q k, 3 <= N -> startable ts w -> tmp w = false -> dl w 0 = None -> Mkdir :: init_envs N 2 = p ++ q -> 1 <= length p -> 3 <= length q ->
  exists w', exec ([EmptyM] ++ p) (set_eng T E En None w) = Ok w' /\ run_two_site T E En dT dE triv grow solve canoL canoR dbg (S k) (crash T E En w') = Abort.
Proof.
  intros ts w p q k HN HS HT HD HP HL HQ. destruct (prelude_ok T E En dT dE triv grow solve canoL canoR dbg N ts w HN HS) as [w1 [A1 _]]. rewrite HT in A1. unfold TwoSiteFacts.prelude in A1. rewrite HP in A1.
  rewrite <- app_assoc in A1. rewrite app_assoc in A1. destruct (exec_prefix _ _ _ _ A1) as [w2 [B1 B2]]. exists w2. split; auto.
  destruct (kept_all _ _ _ B1) as [K1 [K2 K3]]. destruct HS as [H1 [H2 [H3 H4]]].
  destruct p as [|c p]; [simpl in HL; lia|]. cbn [app] in HP. injection HP as <- HP.
  apply (restart_fails N); auto.
  - cbn in K1. congruence.
  - cbn [app] in B1. change (EmptyM :: Mkdir :: p) with ([EmptyM; Mkdir] ++ p) in B1. destruct (exec_prefix _ _ _ _ B1) as [w3 [C1 C2]]. destruct (kept_all _ _ _ C2) as [_ [T3 _]]. apply T3.
    rewrite ex_EmptyM in C1 by (cbn; rewrite H1; exact H2). rewrite ex_Mkdir in C1. cbn in C1. injection C1 as <-. reflexivity.
  - apply K3. cbn. rewrite H3 by lia. discriminate.
  - apply K3. cbn. rewrite H3 by lia. discriminate.
  - right. apply (absent_all L 0 ([EmptyM] ++ Mkdir :: p) (set_eng T E En None w) w2); auto. cbn [app]. constructor; [exact I|]. constructor; [exact I|].
    unfold init_envs in HP. set (loop := flat_map _ _) in HP.
    assert (FL : Forall (keeps_absent L 0) loop).
    { unfold loop. generalize (seq 1 (N - 2)). induction l as [|i l IH]; cbn [flat_map]; [constructor|]. apply Forall_app. split; auto. destruct (1 <? i); cbn [app]; fk. }
    change ([LoadM 0; SetAcc L 0; WriteAcc L 0; FreeM 0; EmptyM]) with ([LoadM 0; SetAcc L 0] ++ [WriteAcc L 0; FreeM 0; EmptyM]) in HP. rewrite !app_assoc in HP.
    set (front := (([LoadM (N - 1); SetAcc R (N - 1); WriteAcc R 0] ++ loop) ++ [LoadM 0; SetAcc L 0])) in HP.
    assert (FF : Forall (keeps_absent L 0) front).
    { unfold front. apply Forall_app. split; [apply Forall_app; split; auto|]; fk. }
    assert (LP : length p <= length front) by (assert (LL := f_equal (@length _) HP); rewrite (app_length front), (app_length p) in LL; cbn [length] in LL; lia).
    assert (PF : p = firstn (length p) front).
    { assert (X := f_equal (firstn (length p)) HP). rewrite firstn_app, firstn_app, Nat.sub_diag, firstn_all in X. cbn [firstn] in X. rewrite app_nil_r in X. replace (length p - length front) with 0 in X by lia. cbn [firstn] in X. rewrite app_nil_r in X. auto. }
    rewrite PF. apply Forall_forall. intros c Hc. rewrite Forall_forall in FF. apply FF. rewrite <- (firstn_skipn (length p) front). apply in_or_app. auto.
Qed.
End Facts.
