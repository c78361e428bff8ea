(** Label histories, order independence of AddTerm, generating without terms. *)
From Coq Require Import List Arith Lia Bool Permutation Sorted.
From Verif Require Import Base SparMat SparMatFacts CoefOp Fsm MpoGen MpoGenFacts MpoTen MpoRun.
Import ListNotations.

(** *** label histories *)
Section Labels.
Variables (A : Type) (eqb : A -> A -> bool).
Hypothesis eqb_spec : forall x y, eqb x y = true <-> x = y.
(** successive calls of Convert (fsm.h 319-337): final table and the labels handed out *)
Fixpoint convert_all (hub : list A) (xs : list A) : list A * list nat :=
  match xs with
  | [] => (hub, [])
  | x :: t => let (h1, l) := convert eqb hub x in let (h2, ls) := convert_all h1 t in (h2, l :: ls)
  end.
Lemma convert_all_spec : forall xs hub, NoDup hub -> let (h, ls) := convert_all hub xs in
  NoDup h /\ (exists e, h = hub ++ e) /\ Forall2 (fun x l => nth_error h l = Some x) xs ls.
Proof.
  induction xs as [|x xs IH]; intros hub ND; simpl; [split; auto; split; [exists []; rewrite app_nil_r; auto|constructor]|].
  destruct (convert eqb hub x) as [h1 l] eqn:E. destruct (convert_spec A eqb eqb_spec _ _ _ _ E) as [[e ->] [H2 H3]].
  specialize (IH _ (H3 ND)). destruct (convert_all (hub ++ e) xs) as [h2 ls]. destruct IH as [I1 [[e2 ->] I3]].
  split; auto. split; [exists (e ++ e2); rewrite app_assoc; auto|]. constructor; auto.
  rewrite nth_error_app1; auto. apply nth_error_Some. congruence.
Qed.
Theorem convert_history : forall hub xs, NoDup hub -> let (h, ls) := convert_all hub xs in
  length ls = length xs /\ (exists e, h = hub ++ e) /\
  (forall i x l, nth_error xs i = Some x -> nth_error ls i = Some l -> nth_error h l = Some x) /\
  (forall i j x y k l, nth_error xs i = Some x -> nth_error xs j = Some y -> nth_error ls i = Some k -> nth_error ls j = Some l ->
     (k = l <-> x = y)).
Proof.
  intros hub xs ND. pose proof (convert_all_spec xs hub ND) as S. destruct (convert_all hub xs) as [h ls]. destruct S as [S1 [S2 S3]].
  assert (G : forall i x l, nth_error xs i = Some x -> nth_error ls i = Some l -> nth_error h l = Some x).
  { intros i. clear - S3. revert i. induction S3; intros [|i] a b H1 H2; simpl in *; try discriminate.
    - injection H1 as <-. injection H2 as <-. auto.
    - eapply IHS3; eauto. }
  split; [symmetry; eapply Forall2_len; eauto|]. split; auto. split; auto.
  intros i j x y k l X1 X2 L1 L2. pose proof (G _ _ _ X1 L1) as K1. pose proof (G _ _ _ X2 L2) as K2. split.
  - intros ->. congruence.
  - intros ->. eapply (proj1 (NoDup_nth_error h)); eauto; [|congruence]. apply nth_error_Some. congruence.
Qed.
Lemma convert_all_app : forall xs ys hub, convert_all hub (xs ++ ys) =
  (fst (convert_all (fst (convert_all hub xs)) ys), snd (convert_all hub xs) ++ snd (convert_all (fst (convert_all hub xs)) ys)).
Proof.
  induction xs as [|x xs IH]; intros ys hub; simpl; [destruct (convert_all hub ys); reflexivity|].
  destruct (convert eqb hub x) as [h1 l]. rewrite IH. destruct (convert_all h1 xs) as [h2 ls]. simpl. reflexivity.
Qed.
End Labels.

(** *** order independence *)
Lemma sorted_unique : forall A (l l' : list (A * nat)), Permutation l l' -> NoDup (map snd l) ->
  StronglySorted (site_le A) l -> StronglySorted (site_le A) l' -> l = l'.
Proof.
  intros A. induction l as [|p l IH]; intros l' HP ND H1 H2.
  - apply Permutation_nil in HP. auto.
  - destruct l' as [|q l']; [apply Permutation_sym, Permutation_nil in HP; discriminate|].
    inversion H1 as [|? ? S1 F1]; subst. inversion H2 as [|? ? S2 F2]; subst. rewrite Forall_forall in F1, F2. simpl in ND. inversion ND as [|? ? N1 N2]; subst.
    assert (p = q).
    { assert (Hp : In p (q :: l')) by (eapply Permutation_in; [exact HP|left; auto]).
      assert (Hq : In q (p :: l)) by (eapply Permutation_in; [apply Permutation_sym; exact HP|left; auto]).
      destruct Hp as [Hp|Hp]; auto. destruct Hq as [Hq|Hq]; auto. exfalso. apply N1.
      pose proof (F2 p Hp) as A1. pose proof (F1 q Hq) as A2. unfold site_le in *.
      replace (snd p) with (snd q) by lia. apply in_map. auto. }
    subst q. f_equal. apply IH; auto. eapply Permutation_cons_inv; eauto.
Qed.
Lemma sort_sites_perm_eq : forall A (l l' : list (A * nat)), Permutation l l' -> NoDup (map snd l) -> sort_sites l = sort_sites l'.
Proof.
  intros A l l' HP ND. apply sorted_unique.
  - rewrite <- sort_sites_perm, <- sort_sites_perm. auto.
  - eapply Permutation_NoDup; [|exact ND]. apply Permutation_map, sort_sites_perm.
  - apply sort_sites_sorted.
  - apply sort_sites_sorted.
Qed.

Section Order.
Variables (R : Type) (r0 r1 : R) (ropp : R -> R) (reqb : R -> R -> bool) (isneg small : R -> bool).
Notation lop := (lop R).
Notation add_term := (add_term R r0 ropp reqb isneg small).
Lemma combine_fst_snd : forall A B (l : list (A * B)), combine (map fst l) (map snd l) = l.
Proof. induction l as [|[a b] l IH]; simpl; auto. f_equal. auto. Qed.

(** the generator after the term depends only on the set of (operator, site) pairs *)
Theorem add_term_perm : forall dbg g c (P P' : list (lop * nat)), Permutation P P' -> NoDup (map snd P) ->
  Forall (fun p => nth_error (g_sites g) (snd p) = Some (lo_ix (fst p))) P ->
  add_term dbg g c (map fst P) (map snd P) = add_term dbg g c (map fst P') (map snd P').
Proof.
  intros dbg g c P P' HP ND HF. unfold MpoGen.add_term. rewrite !map_length, !Nat.eqb_refl. f_equal.
  assert (CK : forall l : list (lop * nat), Forall (fun p => nth_error (g_sites g) (snd p) = Some (lo_ix (fst p))) l ->
    for_loop 0 (length l) (fun i (_ : unit) => let! o := vget (map fst l) i in let! s := vget (map snd l) i in
       let! ix := vget (g_sites g) s in assert_ true (ix =? lo_ix o)) tt = Ok tt).
  { intros l HL. destruct (for_loop_inv _ (fun _ _ => True) (fun i (_ : unit) => let! o := vget (map fst l) i in let! s := vget (map snd l) i in
       let! ix := vget (g_sites g) s in assert_ true (ix =? lo_ix o)) (length l) 0 tt) as [[] [E _]]; auto.
    intros i st Hi _. destruct (nth_error l i) as [p|] eqn:Ep; [|apply nth_error_None in Ep; lia].
    rewrite Forall_forall in HL. pose proof (HL p ltac:(eapply nth_error_In; eauto)) as X.
    unfold vget. rewrite !nth_error_map, Ep. cbn [option_map bind]. rewrite X. cbn [bind]. rewrite Nat.eqb_refl. exists tt. auto. }
  assert (HF' : Forall (fun p => nth_error (g_sites g) (snd p) = Some (lo_ix (fst p))) P').
  { apply Forall_forall. intros p Hp. rewrite Forall_forall in HF. apply HF. eapply Permutation_in; [apply Permutation_sym; exact HP|]. auto. }
  rewrite (CK P HF), (CK P' HF'). cbn [negb].
  assert (SO : forall l : list (lop * nat), (if is_sorted (map snd l) then Ok (map fst l, map snd l)
      else let s := sort_sites (combine (map fst l) (map snd l)) in Ok (map fst s, map snd s)) = Ok (map fst (sort_sites l), map snd (sort_sites l))).
  { intros l. destruct (is_sorted (map snd l)) eqn:E.
    - rewrite sort_sites_id by (apply is_sorted_spec; auto). reflexivity.
    - rewrite combine_fst_snd. reflexivity. }
  rewrite !SO. rewrite (sort_sites_perm_eq _ P P' HP ND). reflexivity.
Qed.
End Order.

(** *** no terms *)
Section Empty.
Variables (R : Type) (r0 r1 : R) (radd rmul : R -> R -> R) (reqb : R -> R -> bool).
Variables (Q : Type) (qsub : Q -> Q -> Q) (qeqb : Q -> Q -> bool) (dv : lop R -> Q).

Lemma rep_app : forall A (x : A) k, repeat x k ++ [x] = repeat x (S k).
Proof. induction k; simpl; auto. f_equal. auto. Qed.
Lemma vget_rep : forall A (x : A) k i, i < k -> vget (repeat x k) i = Ok x.
Proof. intros A x k i H. unfold vget. rewrite (nth_error_nth' _ x) by (rewrite repeat_length; auto). rewrite nth_repeat. reflexivity. Qed.
Lemma empty_mats : forall n ids, gen_mat_repr (fsm_new n ids) = Ok (repeat (mat_new 0 0) n).
Proof.
  intros n ids. unfold gen_mat_repr, site_dims, final_idxs, fsm_new. cbn [f_n f_mid f_ready f_final f_paths f_id].
  destruct (for_loop_inv _ (fun k acc => acc = repeat 0 k) (fun i acc =>
    let! m := vget (repeat 0 (n + 1)) i in let! r := vget (repeat false (n + 1)) i in let! fi := vget (repeat false (n + 1)) i in
    Ok (acc ++ [m + (if r then 1 else 0) + (if fi then 1 else 0)])) (n + 1) 0 []) as [d [E1 ->]]; auto.
  { intros i acc Hi ->. rewrite !vget_rep by lia. eexists. split; [reflexivity|]. apply rep_app. }
  rewrite E1. cbn [bind]. rewrite Nat.add_0_l.
  destruct (for_loop_inv _ (fun k acc => acc = repeat (@None nat) k) (fun i acc =>
    let! fi := vget (repeat false (n + 1)) i in let! r := vget (repeat false (n + 1)) i in let! d := vget (repeat 0 (n + 1)) i in
    Ok (acc ++ [if fi then Some (if r then d - 1 else 0) else None])) (n + 1) 0 []) as [d [E2 ->]]; auto.
  { intros i acc Hi ->. rewrite !vget_rep by lia. eexists. split; [reflexivity|]. apply rep_app. }
  rewrite E2. cbn [bind].
  destruct (for_loop_inv _ (fun k acc => acc = repeat (@mat_new oprepr 0 0) k) (fun i acc =>
    let! r := vget (repeat 0 (n + 1)) i in let! c := vget (repeat 0 (n + 1)) (i + 1) in Ok (acc ++ [mat_new r c])) n 0 []) as [d [E3 ->]]; auto.
  { intros i acc Hi ->. rewrite !vget_rep by lia. eexists. split; [reflexivity|]. apply rep_app. }
  unfold opmat. rewrite E3. reflexivity.
Qed.
Theorem gen_without_terms : forall dbg compress q sites idops, sites <> [] ->
  gen_mpo R r0 radd rmul Q qsub qeqb dv dbg compress q (gen_new R r1 reqb sites idops) = Ub.
Proof.
  intros dbg compress q sites idops HN. unfold gen_mpo, gen_new. destruct (gen_id_reprs R reqb idops) as [oh ids]. cbn [g_fsm g_n g_ch g_oh].
  destruct (length sites) as [|k] eqn:EL; [destruct sites; [congruence|discriminate]|].
  assert (G : bind (for_loop 0 (S k) (ten_step R r0 radd rmul Q qsub qeqb dv dbg (S k) [r1] oh (repeat (mat_new 0 0) (S k))) ([(q, 1)], [], []))
       (fun '(_, _, acc) => Ok acc) = Ub).
  { cbn [for_loop]. unfold ten_step at 1. cbn [repeat vget nth_error bind Nat.eqb]. unfold sort_cols_qn. cbn. destruct dbg; reflexivity. }
  destruct compress.
  - unfold gen_compressed. rewrite empty_mats. cbn [bind fsm_new f_n Nat.eqb]. destruct k as [|k]; [exact G|].
    unfold compress_chain. cbn [Nat.sub]. cbn. destruct dbg; reflexivity.
  - rewrite empty_mats. cbn [bind]. exact G.
Qed.
End Empty.
