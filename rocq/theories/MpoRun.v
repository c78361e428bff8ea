(** Runs of AddTerm calls followed by Gen. *)
From Coq Require Import List Arith Lia Bool Permutation Ring Sorted.
From Verif Require Import Base SparMat CoefOp Fsm FsmFacts MpoGen MpoGenFacts MpoSpec MpoGenSem MpoTen MpoTenSpec MpoTopSpec MpoTop MpoRunSpec.
Import ListNotations.

Section Run.
Variables (R : Type) (r0 r1 : R) (radd rmul rsub : R -> R -> R) (ropp : R -> R).
Variable Rth : ring_theory r0 r1 radd rmul rsub ropp (@eq R).
Add Ring Rring6 : Rth.
Variables (reqb : R -> R -> bool) (isneg small : R -> bool).
Hypothesis reqb_spec : forall x y, reqb x y = true <-> x = y.
Notation lop := (lop R).
Notation norm1 := (norm1 R r0 ropp reqb isneg).
Notation ncoef := (ncoef R r0 ropp reqb isneg).
Notation nrm := (nrm R r0 ropp reqb isneg).
Notation opf := (opf R).
Notation ginv := (ginv R r0 r1 ropp reqb isneg).
Notation first_nz := (first_nz R r0 reqb).
Variables (sites : list nat) (idops : list lop).
Notation n := (length sites).
Notation fits := (fits R sites).
Notation id_on := (id_on R idops).
Notation add_term := (add_term R r0 ropp reqb isneg small).
Notation add_term_inst := (add_term_inst R r0 ropp reqb isneg small).
Notation acounted := (acounted R r0 reqb small).
Notation exec_call := (exec_call R r0 ropp reqb isneg small).

Lemma op_on_spec : forall (P : list (lop * nat)) op, NoDup (map snd P) -> (forall p, In p P -> op (snd p) = fst p) ->
  forall i, (~ In i (map snd P) -> op i = id_on i) -> op_on idops P i = op i.
Proof.
  intros P op ND HP i HI. unfold op_on. destruct (find _ P) as [p|] eqn:E.
  - apply find_some in E. destruct E as [E1 E2]. apply Nat.eqb_eq in E2. subst i. symmetry. auto.
  - symmetry. apply HI. intro Z. apply in_map_iff in Z. destruct Z as [p [Z1 Z2]].
    pose proof (find_none _ _ E p Z2) as X. cbv beta in X. apply Nat.eqb_neq in X. congruence.
Qed.

(** the outcome of a legal call *)
Definition call_res (a : acall R) (op : nat -> lop) (H : list (call R)) (r : res (gen R)) : Prop :=
  exists g' c' P, r = Ok g' /\ valid_call R sites (c', P) /\ ginv sites idops (H ++ [(c', P)]) g' /\
    (forall i, i < n -> op_on idops P i = op i) /\ (forall p, In p P -> fst p = op (snd p)) /\
    c' = (if tail_neg R r0 reqb isneg a then ropp (acoef R a) else acoef R a) /\
    (forall o i, P = [(o, i)] <-> one_site R a = Some (o, i)).

Lemma pairs_ok : forall dbg a op H g c (P : list (lop * nat)), ginv sites idops H g -> reqb c r0 = false -> small c = false ->
  P <> [] -> NoDup (map snd P) -> (forall p, In p P -> fits (fst p) (snd p) /\ op (snd p) = fst p) ->
  (forall i, i < n -> ~ In i (map snd P) -> op i = id_on i) -> tail_neg R r0 reqb isneg a = false -> acoef R a = c ->
  (forall o i, P = [(o, i)] <-> one_site R a = Some (o, i)) ->
  call_res a op H (add_term dbg g c (map fst P) (map snd P)).
Proof.
  intros dbg a op H g c P GI Hc Hs HN ND HP HI HT HA HO.
  assert (HF : Forall (fun p => nth_error sites (snd p) = Some (lo_ix (fst p))) P) by (apply Forall_forall; intros p Hp; apply HP; auto).
  destruct (add_term_spec R r0 r1 ropp reqb isneg small reqb_spec dbg g sites idops H c P GI HN HF Hc Hs) as [g' [E1 E2]].
  exists g', c, P. split; auto. split; [split; auto|]. split; auto. split.
  - intros i Hi. apply op_on_spec; auto. intros p Hp. apply HP. auto.
  - split; [intros p Hp; symmetry; apply HP; auto|]. rewrite HT, HA. auto.
Qed.

Lemma nth_error_combine : forall A B (l : list A) (l' : list B) k a b, nth_error (combine l l') k = Some (a, b) ->
  nth_error l k = Some a /\ nth_error l' k = Some b.
Proof.
  induction l as [|x l IH]; intros [|y l'] [|k] a b H; simpl in *; try discriminate; auto. injection H as -> ->. auto.
Qed.
Lemma map_fst_combine : forall A B (l : list A) (l' : list B), length l = length l' -> map fst (combine l l') = l.
Proof. induction l as [|x l IH]; intros [|y l'] H; simpl in *; try discriminate; auto. f_equal. auto. Qed.
Lemma map_snd_combine : forall A B (l : list A) (l' : list B), length l = length l' -> map snd (combine l l') = l'.
Proof. induction l as [|x l IH]; intros [|y l'] H; simpl in *; try discriminate; auto. f_equal. auto. Qed.

Lemma term_ok : forall dbg a op H g c ops idxs, ginv sites idops H g -> reqb c r0 = false -> small c = false ->
  means_term R sites idops ops idxs op -> tail_neg R r0 reqb isneg a = false -> acoef R a = c ->
  (forall o i, ops = [o] /\ idxs = [i] <-> one_site R a = Some (o, i)) ->
  call_res a op H (add_term dbg g c ops idxs).
Proof.
  intros dbg a op H g c ops idxs GI Hc Hs [M1 [M2 [M3 [M4 M5]]]] HT HA HO.
  rewrite <- (map_fst_combine _ _ ops idxs M2) at 1. rewrite <- (map_snd_combine _ _ ops idxs M2) at 2.
  apply pairs_ok; auto.
  - destruct ops, idxs; try discriminate; congruence.
  - rewrite map_snd_combine; auto.
  - intros [o i] Hp. apply In_nth_error in Hp. destruct Hp as [k Hk]. apply nth_error_combine in Hk. destruct Hk as [K1 K2].
    apply (M4 k o i K1 K2).
  - intros i _ Hi. apply M5. rewrite map_snd_combine in Hi; auto.
  - intros o i. rewrite <- HO. split.
    + intros E. split.
      * rewrite <- (map_fst_combine _ _ ops idxs M2), E. reflexivity.
      * rewrite <- (map_snd_combine _ _ ops idxs M2), E. reflexivity.
    + intros [-> ->]. reflexivity.
Qed.

(** *** strings *)
Definition dl : lop := mkLop 0 [].
Definition seg (phys : list lop) (pidx : list nat) (inst : list lop) (js : nat -> list nat) (k : nat) : list (lop * nat) :=
  (nth k phys dl, nth k pidx 0) :: inst_piece R (nth k inst dl) (js k).
Definition segs phys pidx inst js k : list (lop * nat) := flat_map (seg phys pidx inst js) (seq 0 k).
Lemma segs_S : forall phys pidx inst js k, segs phys pidx inst js (S k) = segs phys pidx inst js k ++ seg phys pidx inst js k.
Proof. intros. unfold segs. rewrite seq_S, flat_map_app. simpl. rewrite app_nil_r. reflexivity. Qed.
Lemma segs_in : forall phys pidx inst js k p, In p (segs phys pidx inst js k) -> exists q, q < k /\ In p (seg phys pidx inst js q).
Proof. intros phys pidx inst js k p H. apply in_flat_map in H. destruct H as [q [H1 H2]]. apply in_seq in H1. exists q. split; auto. lia. Qed.
Lemma vget_nth : forall A (l : list A) i d, i < length l -> vget l i = Ok (nth i l d).
Proof. intros A l i d H. unfold vget. rewrite (nth_error_nth' l d H). reflexivity. Qed.
Lemma last_nth : forall (l : list nat) d, last l d = nth (length l - 1) l d.
Proof.
  induction l as [|a l IH]; intros d; auto. destruct l as [|b l]; auto.
  change (last (a :: b :: l) d) with (last (b :: l) d). rewrite IH. simpl. rewrite Nat.sub_0_r. reflexivity.
Qed.

(** sites between physical operators [k] and [k+1] *)
Definition gap (pidx : list nat) (k : nat) : list nat := seq (nth k pidx 0 + 1) (nth (k + 1) pidx 0 - (nth k pidx 0 + 1)).

Lemma inst_strings_eq : forall dbg g c phys pidx inst, 2 <= length phys -> length pidx = length phys ->
  (length inst = length phys - 1 \/ length inst = length phys) ->
  let m := length phys in
  let l := segs phys pidx inst (gap pidx) (m - 1) ++ (nth (m - 1) phys dl, nth (m - 1) pidx 0) ::
     (if length inst =? m then inst_piece R (nth (m - 1) inst dl) (seq (nth (m - 1) pidx 0) (g_n g - nth (m - 1) pidx 0)) else []) in
  add_term_inst dbg g c phys pidx inst [] = add_term dbg g c (map fst l) (map snd l).
Proof.
  intros dbg g c phys pidx inst H2 HP HL m l. unfold MpoGen.add_term_inst.
  rewrite (proj2 (Nat.leb_le _ _) H2), assert_t. cbn [bind].
  rewrite (proj2 (Nat.eqb_eq _ _) (eq_sym HP)), assert_t. cbn [bind].
  replace ((length inst =? length phys - 1) || (length inst =? length phys)) with true.
  2:{ symmetry. apply orb_true_iff. rewrite !Nat.eqb_eq. auto. }
  rewrite !assert_t. cbn [bind]. rewrite (proj2 (Nat.eqb_neq (length phys) 0)) by lia.
  match goal with |- context [for_loop 0 ?n ?b []] =>
    destruct (for_loop_inv _ (fun k acc => acc = segs phys pidx inst (gap pidx) k) b n 0 []) as [body [E1 E2]] end.
  - reflexivity.
  - intros i acc Hi ->. rewrite (vget_nth _ _ _ dl) by lia. cbn [bind]. rewrite (vget_nth _ _ _ 0) by lia. cbn [bind].
    rewrite (vget_nth _ pidx (i + 1) 0) by lia. cbn [bind]. rewrite segs_S. unfold seg, gap.
    destruct (Nat.ltb_spec (nth i pidx 0 + 1) (nth (i + 1) pidx 0)).
    + rewrite (vget_nth _ _ _ dl) by lia. cbn [bind]. eexists. split; [reflexivity|]. reflexivity.
    + eexists. split; [reflexivity|]. rewrite (proj2 (Nat.sub_0_le _ _)) by auto. reflexivity.
  - rewrite E1. cbn [bind]. subst body. rewrite (vget_nth _ _ _ dl) by lia. cbn [bind].
    destruct pidx as [|a0 t0] eqn:EP; [simpl in HP; lia|]. rewrite <- EP in *. cbn [bind].
    rewrite last_nth, HP. fold m. unfold l. destruct (length inst =? m) eqn:EL.
    + apply Nat.eqb_eq in EL. rewrite (vget_nth _ _ _ dl) by lia. cbn [bind]. rewrite EL, EP. reflexivity.
    + cbn [bind]. rewrite EP. reflexivity.
Qed.

Lemma inst_explicit_eq : forall dbg g c phys pidx inst ii, ii <> [] -> 2 <= length phys -> length pidx = length phys ->
  (length inst = length phys - 1 \/ length inst = length phys) -> length ii = length inst ->
  let m := length phys in
  let js := fun k => nth k ii [] in
  let l := segs phys pidx inst js (m - 1) ++ (nth (m - 1) phys dl, nth (m - 1) pidx 0) ::
     (if length inst =? m then inst_piece R (nth (m - 1) inst dl) (js (m - 1)) else []) in
  add_term_inst dbg g c phys pidx inst ii = add_term dbg g c (map fst l) (map snd l).
Proof.
  intros dbg g c phys pidx inst ii HI H2 HP HL HII m js l. unfold MpoGen.add_term_inst.
  rewrite (proj2 (Nat.leb_le _ _) H2), assert_t. cbn [bind].
  rewrite (proj2 (Nat.eqb_eq _ _) (eq_sym HP)), assert_t. cbn [bind].
  replace ((length inst =? length phys - 1) || (length inst =? length phys)) with true.
  2:{ symmetry. apply orb_true_iff. rewrite !Nat.eqb_eq. auto. }
  rewrite assert_t. cbn [bind].
  destruct ii as [|j0 ii0] eqn:EI; [congruence|]. rewrite <- EI in *. rewrite (proj2 (Nat.eqb_eq _ _) HII), assert_t. cbn [bind].
  rewrite (proj2 (Nat.eqb_neq (length phys) 0)) by lia.
  match goal with |- context [for_loop 0 ?n ?b []] =>
    destruct (for_loop_inv _ (fun k acc => acc = segs phys pidx inst js k) b n 0 []) as [body [E1 E2]] end.
  - reflexivity.
  - intros i acc Hi ->. rewrite (vget_nth _ _ _ dl) by lia. cbn [bind]. rewrite (vget_nth _ _ _ 0) by lia. cbn [bind].
    rewrite (vget_nth _ ii i []) by lia. cbn [bind]. rewrite segs_S. unfold seg, js.
    destruct (nth i ii []) eqn:EJ.
    + eexists. split; [reflexivity|]. rewrite <- EI, EJ. reflexivity.
    + rewrite (vget_nth _ _ _ dl) by lia. cbn [bind]. eexists. split; [reflexivity|]. rewrite <- EI, EJ. reflexivity.
  - rewrite E1. cbn [bind]. subst body. rewrite (vget_nth _ _ _ dl) by lia. cbn [bind].
    destruct pidx as [|a0 t0] eqn:EP; [simpl in HP; lia|]. rewrite <- EP in *. cbn [bind].
    rewrite last_nth, HP. fold m. unfold l. destruct (length inst =? m) eqn:EL.
    + apply Nat.eqb_eq in EL. rewrite (vget_nth _ _ _ dl) by lia. cbn [bind]. rewrite (vget_nth _ ii _ []) by lia. cbn [bind].
      rewrite HII, EL, EP, EI. reflexivity.
    + cbn [bind]. rewrite EP. reflexivity.
Qed.

Lemma piece_snd : forall f js, map snd (inst_piece R f js) = js.
Proof. intros. unfold inst_piece. rewrite map_map. simpl. apply map_id. Qed.
Lemma piece_in : forall f js p, In p (inst_piece R f js) -> fst p = f /\ In (snd p) js.
Proof. intros f js p H. apply in_map_iff in H. destruct H as [j [<- H]]. auto. Qed.

Lemma asc_le : forall (pidx : list nat), (forall k a b, nth_error pidx k = Some a -> nth_error pidx (S k) = Some b -> a < b) ->
  forall k, S k < length pidx -> nth k pidx 0 < nth (S k) pidx 0.
Proof. intros pidx H k Hk. apply (H k); apply nth_error_nth'; lia. Qed.
Lemma segs_sites : forall phys pidx inst, (forall k, S k < length pidx -> nth k pidx 0 < nth (S k) pidx 0) ->
  forall k, k < length pidx -> nth 0 pidx 0 <= nth k pidx 0 /\
  map snd (segs phys pidx inst (gap pidx) k) = seq (nth 0 pidx 0) (nth k pidx 0 - nth 0 pidx 0).
Proof.
  intros phys pidx inst HA. induction k; intros Hk; [rewrite Nat.sub_diag; auto|].
  destruct IHk as [I1 I2]; [lia|]. specialize (HA k Hk). split; [lia|].
  rewrite segs_S, map_app, I2. unfold seg, gap. simpl map. rewrite piece_snd.
  replace (nth k pidx 0 :: seq (nth k pidx 0 + 1) (nth (k + 1) pidx 0 - (nth k pidx 0 + 1))) with (seq (nth k pidx 0) (nth (S k) pidx 0 - nth k pidx 0)).
  - replace (nth (S k) pidx 0 - nth 0 pidx 0) with ((nth k pidx 0 - nth 0 pidx 0) + (nth (S k) pidx 0 - nth k pidx 0)) by lia.
    rewrite seq_app. f_equal. f_equal. lia.
  - replace (nth (S k) pidx 0 - nth k pidx 0) with (S (nth (k + 1) pidx 0 - (nth k pidx 0 + 1))) by (replace (k + 1) with (S k) by lia; lia).
    simpl. replace (nth k pidx 0 + 1) with (S (nth k pidx 0)) by lia. reflexivity.
Qed.

Lemma seq_sorted_pairs : forall (P : list (lop * nat)) a k, map snd P = seq a k -> StronglySorted (site_le lop) P.
Proof.
  induction P as [|p P IH]; intros a k H; [constructor|]. destruct k as [|k]; [discriminate|]. simpl in H. injection H as H1 H2.
  constructor; [eapply IH; eauto|]. apply Forall_forall. intros q Hq. unfold site_le.
  assert (In (snd q) (seq (S a) k)) by (rewrite <- H2; apply in_map; auto). apply in_seq in H. lia.
Qed.

Lemma nrm_sorted : forall P, StronglySorted (site_le lop) P -> StronglySorted (site_le lop) (nrm P).
Proof.
  intros P H. induction H as [|p P H IH HF]; [constructor|]. simpl. constructor; auto. apply Forall_forall. intros q Hq.
  apply in_map_iff in Hq. destruct Hq as [q' [<- Hq]]. rewrite Forall_forall in HF. apply (HF q' Hq).
Qed.

(** a second operator listed behind another one of the same site only moves its sign *)
Lemma ginv_dedup : forall H g c E p f t, snd f = snd p -> StronglySorted (site_le lop) (E ++ p :: t) ->
  StronglySorted (site_le lop) (E ++ p :: f :: t) ->
  ginv sites idops (H ++ [(c, E ++ p :: f :: t)]) g ->
  ginv sites idops (H ++ [(if isneg (first_nz (fst f)) then ropp c else c, E ++ p :: t)]) g.
Proof.
  intros H g c E p f t Hs S1 S2 [N1 N2 N3 N4 C0 CD OD [idl [ts [F1 [F2 F3]]]]]. constructor; auto. exists idl, ts. split; auto. split; auto.
  apply Forall2_app_inv_r in F3. destruct F3 as [ts1 [ts2 [F3 [F4 ->]]]]. apply Forall2_app; auto.
  clear N1 N2 N3 N4 C0 CD OD. inversion F4 as [|t0 ? ts0 ? F5 F6]; subst. inversion F6; subst. constructor; [|constructor]. clear F4 F6. simpl fst in *. simpl snd in *.
  assert (EN : ncoef c (map fst (E ++ p :: f :: t)) = ncoef (if isneg (first_nz (fst f)) then ropp c else c) (map fst (E ++ p :: t))).
  { rewrite !map_app. simpl map. rewrite (ncoef_perm R r0 ropp reqb isneg _ (fst f :: map fst E ++ fst p :: map fst t)); [reflexivity|].
    change (map fst E ++ fst p :: fst f :: map fst t) with (map fst E ++ [fst p] ++ fst f :: map fst t).
    change (map fst E ++ fst p :: map fst t) with (map fst E ++ [fst p] ++ map fst t).
    rewrite !app_assoc. apply Permutation_sym, Permutation_middle. }
  rewrite EN in F5. rewrite sort_sites_id in F5 by (apply nrm_sorted; auto). rewrite sort_sites_id by (apply nrm_sorted; auto).
  assert (EO : forall i, opf idops (nrm (E ++ p :: t)) i = opf idops (nrm (E ++ p :: f :: t)) i).
  { intros i. unfold MpoGenFacts.opf, MpoGenFacts.nrm. rewrite !map_app. generalize (map (fun p0 : lop * nat => (norm1 (fst p0), snd p0)) E) as l.
    induction l as [|q l IH]; simpl.
    - rewrite Hs. destruct (i =? snd p); reflexivity.
    - destruct (i =? snd q); auto. }
  assert (EH : head_site R (nrm (E ++ p :: t)) = head_site R (nrm (E ++ p :: f :: t))) by (destruct E; reflexivity).
  assert (ET : tail_site R (nrm (E ++ p :: t)) = tail_site R (nrm (E ++ p :: f :: t))).
  { unfold tail_site. rewrite !nrm_snd, !map_app. simpl. rewrite Hs. clear. generalize (map snd E) as l.
    induction l as [|x l IH]; simpl; [destruct t; reflexivity|]. rewrite IH. destruct l; reflexivity. }
  destruct F5 as [M1 M2 M3 [l [k [M4 [M5 M6]]]] M7]. constructor; auto; try congruence.
  - exists l, k. split; auto. split; auto. rewrite EO. auto.
  - intros i Hi. destruct (M7 i Hi) as [l' [Q1 Q2]]. exists l'. split; auto. rewrite EO. auto.
Qed.

Lemma strings_ok : forall dbg a op H g c phys pidx inst, ginv sites idops H g -> reqb c r0 = false -> small c = false ->
  means_strings R sites idops phys pidx inst op ->
  tail_neg R r0 reqb isneg a = (length inst =? length phys) &&
      match nth_error inst (length inst - 1) with Some f => isneg (first_nonzero R r0 reqb f) | None => false end ->
  acoef R a = c -> one_site R a = None -> call_res a op H (add_term_inst dbg g c phys pidx inst []).
Proof.
  intros dbg a op H g c phys pidx inst GI Hc Hs M HT HA HO. unfold means_strings in M. set (m := length phys) in *.
  destruct M as [M1 [M2 [M3 [M4 [M5 [M6 [M7 [M8 M9]]]]]]]].
  pose proof (gi_n _ _ _ _ _ _ _ _ _ _ GI) as GN.
  pose proof (asc_le pidx M5) as AS.
  rewrite inst_strings_eq by (auto; lia). fold m. cbv zeta. rewrite GN.
  set (al := nth (m - 1) pidx 0). set (pl := nth (m - 1) phys dl). set (E := segs phys pidx inst (gap pidx) (m - 1)).
  assert (PP : forall k, k < m -> fits (nth k phys dl) (nth k pidx 0) /\ op (nth k pidx 0) = nth k phys dl).
  { intros k Hk. apply (M4 k); apply nth_error_nth'; lia. }
  assert (Hal : al < n). { destruct (PP (m - 1) ltac:(lia)) as [X _]. apply nth_error_Some. unfold MpoRunSpec.fits in X. fold al in X. congruence. }
  destruct (segs_sites phys pidx inst AS (m - 1) ltac:(lia)) as [A1 A2]. fold E al in A1, A2.
  assert (HE : forall p, In p E -> fits (fst p) (snd p) /\ op (snd p) = fst p).
  { intros p Hp. apply segs_in in Hp. destruct Hp as [q [Hq Hp]]. destruct Hp as [<-|Hp]; simpl; [apply PP; lia|].
    apply piece_in in Hp. destruct Hp as [-> Hp]. unfold gap in Hp. apply in_seq in Hp. replace (q + 1) with (S q) in Hp by lia.
    apply (M6 q (nth q pidx 0) (nth (S q) pidx 0) (nth q inst dl) (snd p)); try (apply nth_error_nth'; lia). lia. }
  set (tl := fun b => if length inst =? m then inst_piece R (nth (m - 1) inst dl) (seq b (n - b)) else []).
  assert (TL : forall b, al <= b -> forall p, In p (tl b) -> b <= snd p < n /\ fst p = nth (m - 1) inst dl /\ fits (fst p) (snd p) /\
     (al < snd p -> op (snd p) = fst p)).
  { intros b Hb p Hp. unfold tl in Hp. destruct (Nat.eqb_spec (length inst) m) as [EL|EL]; [|destruct Hp].
    apply piece_in in Hp. destruct Hp as [-> Hp]. apply in_seq in Hp.
    destruct (M9 (nth (m - 1) inst dl) EL ltac:(apply nth_error_nth'; lia)) as [X1 X2]. fold al in X1, X2.
    split; [lia|]. split; auto. split; [apply X1; lia|]. intros. apply X2. lia. }
  set (P := E ++ (pl, al) :: tl (S al)).
  assert (SP : map snd P = seq (nth 0 pidx 0) (al - nth 0 pidx 0 + 1 + (if length inst =? m then n - S al else 0))).
  { unfold P. rewrite map_app, A2. simpl map. rewrite <- Nat.add_assoc, seq_app. f_equal.
    replace (nth 0 pidx 0 + (al - nth 0 pidx 0)) with al by lia. unfold tl. destruct (length inst =? m).
    - rewrite piece_snd. reflexivity.
    - reflexivity. }
  assert (NDP : NoDup (map snd P)) by (rewrite SP; apply seq_NoDup).
  assert (HPP : forall p, In p P -> fits (fst p) (snd p) /\ op (snd p) = fst p).
  { intros p Hp. unfold P in Hp. apply in_app_iff in Hp. destruct Hp as [Hp|[<-|Hp]]; [apply HE; auto|apply PP; lia|].
    destruct (TL (S al) ltac:(lia) p Hp) as [T1 [T2 [T3 T4]]]. split; auto. apply T4. lia. }
  assert (HPI : forall i, i < n -> ~ In i (map snd P) -> op i = id_on i).
  { intros i Hi Hn. rewrite SP in Hn. rewrite in_seq in Hn. destruct (Nat.lt_ge_cases i (nth 0 pidx 0)); [apply M7; auto|].
    destruct (Nat.eqb_spec (length inst) m); [lia|]. apply M8; [lia|]. fold al. lia. }
  assert (NEP : P <> []) by (unfold P; destruct E; discriminate).
  assert (LEN : 2 <= length P).
  { rewrite <- (map_length snd), SP, seq_length. pose proof (AS (m - 2) ltac:(lia)) as X. replace (S (m - 2)) with (m - 1) in X by lia. fold al in X.
    assert (nth 0 pidx 0 <= nth (m - 2) pidx 0) by (apply (segs_sites phys pidx inst AS); lia). lia. }
  assert (ONE : forall o i, P = [(o, i)] <-> one_site R a = Some (o, i)).
  { intros o i. rewrite HO. split; [|discriminate]. intros EP. rewrite EP in LEN. simpl in LEN. lia. }
  destruct (Nat.eqb_spec (length inst) m) as [EL|EL].
  - (* tail string: code lists the insertion operator on site al as well *)
    destruct (n - al) as [|q] eqn:EQ; [lia|]. simpl seq. unfold inst_piece at 1. simpl map at 3. fold (inst_piece R (nth (m - 1) inst dl) (seq (S al) q)).
    set (f := nth (m - 1) inst dl) in *.
    assert (ET : inst_piece R f (seq (S al) q) = tl (S al)).
    { unfold tl. fold f. f_equal. f_equal. lia. }
    set (l := E ++ (pl, al) :: (f, al) :: inst_piece R f (seq (S al) q)).
    assert (SS1 : StronglySorted (site_le lop) (E ++ (pl, al) :: tl (S al))) by (eapply seq_sorted_pairs; exact SP).
    assert (SS2 : StronglySorted (site_le lop) l).
    { unfold l. rewrite ET. clear - SS1. induction E as [|e E IH]; simpl in *.
      - inversion SS1; subst. constructor; [constructor; auto|]. constructor; [unfold site_le; simpl; lia|auto].
      - inversion SS1 as [|? ? X1 X2]; subst. constructor; auto. rewrite Forall_forall in *. intros x Hx.
        apply in_app_iff in Hx. destruct Hx as [Hx|[Hx|[Hx|Hx]]].
        + apply X2. apply in_app_iff. auto.
        + apply X2. apply in_app_iff. simpl. auto.
        + subst x. apply (X2 (pl, al)). apply in_app_iff. simpl. auto.
        + apply X2. apply in_app_iff. simpl. auto. }
    assert (HFl : Forall (fun p => nth_error sites (snd p) = Some (lo_ix (fst p))) l).
    { apply Forall_forall. intros p Hp. unfold l in Hp. apply in_app_iff in Hp. destruct Hp as [Hp|[<-|[<-|Hp]]].
      - apply HE; auto.
      - apply PP. lia.
      - destruct (M9 f EL ltac:(unfold f; apply nth_error_nth'; lia)) as [X _]. apply X. fold al. simpl. lia.
      - rewrite ET in Hp. apply (TL (S al) ltac:(lia) p Hp). }
    destruct (add_term_spec R r0 r1 ropp reqb isneg small reqb_spec dbg g sites idops H c l GI) as [g' [E1 E2]]; auto.
    { unfold l. destruct E; discriminate. }
    exists g', (if isneg (first_nz f) then ropp c else c), P. split; [exact E1|]. split.
    { split; [auto|]. split; auto. apply Forall_forall. intros p Hp. apply HPP; auto. }
    split.
    { unfold P. apply (ginv_dedup H g' c E (pl, al) (f, al) (tl (S al))); auto; rewrite <- ET; [exact SS2|exact E2]. }
    split; [intros i Hi; apply op_on_spec; auto; intros p Hp; apply HPP; auto|].
    split; [intros p Hp; symmetry; apply HPP; auto|]. split; [|exact ONE].
    rewrite HT, HA. rewrite EL. cbn [andb].
    rewrite (nth_error_nth' inst dl) by lia. fold f. reflexivity.
  - assert (EP : P = E ++ [(pl, al)]).
    { unfold P, tl. reflexivity. }
    rewrite <- EP. apply pairs_ok; auto.
Qed.

Lemma firstn_S_nth : forall A (l : list A) k d, k < length l -> firstn (S k) l = firstn k l ++ [nth k l d].
Proof.
  induction l as [|x l IH]; intros [|k] d H; simpl in *; try lia; auto. f_equal. apply IH. lia.
Qed.

Lemma segs_perm : forall phys pidx inst ii k, k <= length pidx -> k <= length ii ->
  Permutation (map snd (segs phys pidx inst (fun k => nth k ii []) k)) (firstn k pidx ++ concat (firstn k ii)).
Proof.
  induction k; intros H1 H2; [reflexivity|]. rewrite segs_S, map_app. unfold seg. simpl map. rewrite piece_snd.
  rewrite (firstn_S_nth _ pidx k 0), (firstn_S_nth _ ii k []) by lia. rewrite concat_app. simpl concat. rewrite app_nil_r.
  rewrite IHk by lia. rewrite <- !app_assoc. apply Permutation_app_head.
  transitivity ((nth k pidx 0 :: nth k ii []) ++ concat (firstn k ii)); [apply Permutation_app_comm|].
  simpl. constructor. apply Permutation_app_comm.
Qed.

Lemma explicit_ok : forall dbg a op H g c phys pidx inst ii, ginv sites idops H g -> reqb c r0 = false -> small c = false ->
  ii <> [] -> means_explicit R sites idops phys pidx inst ii op -> tail_neg R r0 reqb isneg a = false -> acoef R a = c ->
  one_site R a = None -> call_res a op H (add_term_inst dbg g c phys pidx inst ii).
Proof.
  intros dbg a op H g c phys pidx inst ii GI Hc Hs HI M HT HA HO. unfold means_explicit in M. set (m := length phys) in *.
  destruct M as [M1 [M2 [M3 [M4 [M5 [M6 [M7 M8]]]]]]].
  rewrite inst_explicit_eq by (auto; lia). fold m. cbv zeta.
  set (P := segs phys pidx inst (fun k => nth k ii []) (m - 1) ++ (nth (m - 1) phys dl, nth (m - 1) pidx 0) ::
    (if length inst =? m then inst_piece R (nth (m - 1) inst dl) (nth (m - 1) ii []) else [])).
  assert (PM : Permutation (map snd P) (pidx ++ concat ii)).
  { unfold P. rewrite map_app. simpl map. rewrite segs_perm by lia.
    assert (EX : pidx = firstn (m - 1) pidx ++ [nth (m - 1) pidx 0]).
    { rewrite <- (firstn_S_nth _ pidx (m - 1) 0) by lia. rewrite firstn_all2; auto. lia. }
    assert (EY : concat ii = concat (firstn (m - 1) ii) ++ map snd (if length inst =? m then inst_piece R (nth (m - 1) inst dl) (nth (m - 1) ii []) else [])).
    { destruct (Nat.eqb_spec (length inst) m) as [EL|EL].
      - rewrite piece_snd. transitivity (concat (firstn (S (m - 1)) ii)); [rewrite firstn_all2; auto; lia|].
        rewrite (firstn_S_nth _ ii (m - 1) []) by lia. rewrite concat_app. simpl. rewrite app_nil_r. reflexivity.
      - simpl. rewrite app_nil_r, firstn_all2; auto. lia. }
    rewrite EY. rewrite EX at 3. rewrite <- !app_assoc. apply Permutation_app_head. simpl.
    transitivity (nth (m - 1) pidx 0 :: map snd (if length inst =? m then inst_piece R (nth (m - 1) inst dl) (nth (m - 1) ii []) else []) ++ concat (firstn (m - 1) ii)).
    - etransitivity; [apply Permutation_app_comm|]. reflexivity.
    - constructor. apply Permutation_app_comm. }
  assert (NDP : NoDup (map snd P)) by (eapply Permutation_NoDup; [apply Permutation_sym; exact PM|]; auto).
  assert (L2 : 2 <= length P).
  { rewrite <- (map_length snd). rewrite (Permutation_length PM), app_length. lia. }
  apply pairs_ok; auto.
  - destruct P; [simpl in L2; lia|discriminate].
  - assert (IN : forall k p, k < length inst -> In p (inst_piece R (nth k inst dl) (nth k ii [])) -> fits (fst p) (snd p) /\ op (snd p) = fst p).
    { intros k p Hk Hp. apply piece_in in Hp. destruct Hp as [-> Hp]. apply (M7 k _ (nth k ii [])); auto; apply nth_error_nth'; lia. }
    assert (PH : forall k, k < m -> fits (nth k phys dl) (nth k pidx 0) /\ op (nth k pidx 0) = nth k phys dl).
    { intros k Hk. apply (M6 k); apply nth_error_nth'; lia. }
    intros p Hp. unfold P in Hp. apply in_app_iff in Hp. destruct Hp as [Hp|[<-|Hp]].
    + apply segs_in in Hp. destruct Hp as [q [Hq [<-|Hp]]]; [apply PH; lia|]. apply (IN q); auto. lia.
    + apply PH. lia.
    + destruct (Nat.eqb_spec (length inst) m) as [EL|EL]; [|destruct Hp]. apply (IN (m - 1)); auto. lia.
  - intros i Hi Hn. apply M8. intro Z. apply Hn. eapply Permutation_in; [apply Permutation_sym; exact PM|]. auto.
  - intros o i. rewrite HO. split; [|discriminate]. intros EP. rewrite EP in L2. simpl in L2. lia.
Qed.

Lemma call_ok : forall dbg a op H g, ginv sites idops H g -> means R sites idops a op -> acounted a = true ->
  call_res a op H (exec_call dbg a g).
Proof.
  intros dbg a op H g GI M C. unfold MpoRunSpec.acounted in C. apply andb_true_iff in C. destruct C as [C1 C2].
  apply negb_true_iff in C1, C2.
  destruct a as [c ops idxs|c phys pidx inst ii|c o1 i1 o2 i2 f ii]; simpl in C1, C2, M; cbn [MpoRunSpec.exec_call].
  - apply term_ok; auto. intros o i. simpl. split; [intros [-> ->]; reflexivity|].
    destruct ops as [|o' [|]], idxs as [|i' [|]]; try discriminate. intros E. injection E as -> ->. auto.
  - destruct ii as [|j ii].
    + apply strings_ok; auto.
    + apply explicit_ok; auto. discriminate.
  - unfold add_term2. destruct o2 as [o2|].
    + destruct f as [f|].
      * destruct ii as [|j ii].
        -- assert (L : i1 < i2) by (destruct M as [_ [_ [_ [_ [M5 _]]]]]; apply (M5 0 i1 i2); reflexivity).
           rewrite (proj2 (Nat.eqb_neq i2 0)) by lia. rewrite assert_t. cbn [bind]. rewrite (proj2 (Nat.ltb_lt _ _) L), assert_t. cbn [bind].
           apply strings_ok; auto.
        -- destruct M as [M0 M]. rewrite (proj2 (Nat.eqb_neq i2 0) M0), assert_t. cbn [bind]. apply explicit_ok; auto. discriminate.
      * destruct M as [M0 M]. rewrite (proj2 (Nat.eqb_neq i2 0) M0), assert_t. cbn [bind]. apply term_ok; auto. intros o i. simpl. split; [intros [X _]|intros X]; discriminate.
    + apply term_ok; auto. intros o i. simpl. split; [intros [X Y]; injection X as ->; injection Y as ->; reflexivity|].
      intros X. injection X as -> ->. auto.
Qed.

(** an uncounted term leaves the generator as it is *)
Lemma add_term_ignored : forall dbg g c ops idxs, length ops = length idxs -> reqb c r0 = true \/ small c = true ->
  add_term dbg g c ops idxs = Ok g.
Proof.
  intros dbg g c ops idxs HL HC. unfold MpoGen.add_term. rewrite (proj2 (Nat.eqb_eq _ _) HL), assert_t. cbn [bind].
  destruct (reqb c r0); auto. destruct HC as [X|X]; [discriminate|]. rewrite X. auto.
Qed.
Lemma call_ignored : forall dbg a op g, g_n g = n -> means R sites idops a op -> acounted a = false -> exec_call dbg a g = Ok g.
Proof.
  intros dbg a op g GN M C.
  assert (C' : reqb (acoef R a) r0 = true \/ small (acoef R a) = true).
  { unfold MpoRunSpec.acounted in C. destruct (reqb _ _); auto. destruct (small _); auto. }
  clear C.
  destruct a as [c ops idxs|c phys pidx inst ii|c o1 i1 o2 i2 f ii]; simpl in C', M; cbn [MpoRunSpec.exec_call].
  - apply add_term_ignored; auto. apply M.
  - destruct ii as [|j ii].
    + destruct M as [M1 [M2 [M3 _]]]. rewrite inst_strings_eq by auto. cbv zeta. apply add_term_ignored; auto. rewrite !map_length. reflexivity.
    + destruct M as [M1 [M2 [M3 [M4 _]]]]. rewrite inst_explicit_eq by (auto; discriminate). cbv zeta. apply add_term_ignored; auto. rewrite !map_length. reflexivity.
  - unfold add_term2. destruct o2 as [o2|].
    + destruct f as [f|].
      * destruct ii as [|j ii].
        -- assert (L : i1 < i2) by (destruct M as [_ [_ [_ [_ [M5 _]]]]]; apply (M5 0 i1 i2); reflexivity).
           rewrite (proj2 (Nat.eqb_neq i2 0)) by lia. rewrite assert_t. cbn [bind]. rewrite (proj2 (Nat.ltb_lt _ _) L), assert_t. cbn [bind].
           destruct M as [M1 [M2 [M3 _]]]. rewrite inst_strings_eq by auto. cbv zeta. apply add_term_ignored; auto. rewrite !map_length. reflexivity.
        -- destruct M as [M0 M]. rewrite (proj2 (Nat.eqb_neq i2 0) M0), assert_t. cbn [bind].
           destruct M as [M1 [M2 [M3 [M4 _]]]]. rewrite inst_explicit_eq by (auto; discriminate). cbv zeta. apply add_term_ignored; auto. rewrite !map_length. reflexivity.
      * destruct M as [M0 M]. rewrite (proj2 (Nat.eqb_neq i2 0) M0), assert_t. cbn [bind]. apply add_term_ignored; auto.
    + apply add_term_ignored; auto.
Qed.
End Run.
