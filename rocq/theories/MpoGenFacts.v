(** What the AddTerm overloads do to a generator. *)
From Coq Require Import List Arith Lia Bool Permutation Ring Sorted.
From Verif Require Import Base SparMat SparMatFacts CoefOp CoefOpAlg CoefOpFacts Compress Fsm Numeric Chain
  ChainProgress FsmFacts FsmMat FsmSem MpoGen.
Import ListNotations.

(** *** Label convertor *)
Lemma find_idx_some : forall A (f : A -> bool) l k, find_idx f l = Some k ->
  exists a, nth_error l k = Some a /\ f a = true /\ forall j b, j < k -> nth_error l j = Some b -> f b = false.
Proof.
  induction l as [|a t IH]; intros k H; simpl in H; [discriminate|]. destruct (f a) eqn:E.
  - injection H as <-. exists a. split; auto. split; auto. intros. lia.
  - destruct (find_idx f t) as [k'|] eqn:E1; [|discriminate]. injection H as <-.
    destruct (IH k' eq_refl) as [b [H1 [H2 H3]]]. exists b. split; auto. split; auto.
    intros [|j] x Hj Hx; simpl in Hx; [congruence|]. apply (H3 j); auto. lia.
Qed.
Lemma find_idx_none : forall A (f : A -> bool) l, find_idx f l = None -> forall a, In a l -> f a = false.
Proof.
  induction l as [|a t IH]; intros H b Hb; simpl in *; [tauto|]. destruct (f a) eqn:E; [discriminate|].
  destruct (find_idx f t) eqn:E1; [discriminate|]. destruct Hb as [<-|Hb]; auto.
Qed.
Lemma find_idx_ex : forall A (f : A -> bool) l a, In a l -> f a = true -> exists k, find_idx f l = Some k.
Proof.
  intros A f l a Ha Hf. destruct (find_idx f l) eqn:E; eauto. rewrite (find_idx_none _ _ _ E a Ha) in Hf. discriminate.
Qed.
Lemma find_idx_find : forall A B (f : B -> bool) (g : A -> B) l k,
  find_idx f (map g l) = Some k -> find (fun a => f (g a)) l = nth_error l k.
Proof.
  induction l as [|a t IH]; intros k H; simpl in *; [discriminate|]. destruct (f (g a)); [injection H as <-; auto|].
  destruct (find_idx f (map g t)) eqn:E; [|discriminate]. injection H as <-. simpl. auto.
Qed.
Lemma find_idx_find_none : forall A B (f : B -> bool) (g : A -> B) l,
  find_idx f (map g l) = None -> find (fun a => f (g a)) l = None.
Proof.
  induction l as [|a t IH]; intros H; simpl in *; auto. destruct (f (g a)); [discriminate|].
  destruct (find_idx f (map g t)) eqn:E; [discriminate|]. auto.
Qed.

Section Convert.
Variables (A : Type) (eqb : A -> A -> bool).
Hypothesis eqb_spec : forall x y, eqb x y = true <-> x = y.
Lemma convert_spec : forall hub x hub' k, convert eqb hub x = (hub', k) ->
  (exists ext, hub' = hub ++ ext) /\ nth_error hub' k = Some x /\ (NoDup hub -> NoDup hub').
Proof.
  intros hub x hub' k H. unfold convert in H. destruct (find_idx _ hub) as [q|] eqn:E; injection H as <- <-.
  - destruct (find_idx_some _ _ _ _ E) as [a [H1 [H2 _]]]. apply eqb_spec in H2. subst a.
    split; [exists []; rewrite app_nil_r; auto|]. auto.
  - split; [eexists; reflexivity|]. split.
    + rewrite nth_error_app2, Nat.sub_diag by lia. reflexivity.
    + intros HN. apply NoDup_rev in HN. rewrite <- (rev_involutive (hub ++ [x])). apply NoDup_rev. rewrite rev_app_distr.
      simpl. constructor; auto. rewrite <- in_rev. intro Q.
      pose proof (find_idx_none _ _ _ E x Q) as Q1. simpl in Q1.
      rewrite (proj2 (eqb_spec x x) eq_refl) in Q1. discriminate.
Qed.
End Convert.

Lemma leqb_spec : forall A (eqb : A -> A -> bool), (forall x y, eqb x y = true <-> x = y) ->
  forall a b, leqb eqb a b = true <-> a = b.
Proof.
  intros A eqb H. induction a as [|x a IH]; intros [|y b]; simpl; split; try congruence; auto.
  - intros Q. apply andb_true_iff in Q. destruct Q as [Q1 Q2]. apply H in Q1. apply IH in Q2. congruence.
  - intros Q. injection Q as <- <-. rewrite (proj2 (H x x) eq_refl), (proj2 (IH a) eq_refl). reflexivity.
Qed.

(** *** Sorting by site *)
Section Sorting.
Variable A : Type.
Definition site_le (p q : A * nat) : Prop := snd p <= snd q.
Lemma insert_site_perm : forall (p : A * nat) l, Permutation (p :: l) (insert_site p l).
Proof.
  induction l as [|q t IH]; simpl; auto. destruct (snd p <=? snd q); auto.
  etransitivity; [apply perm_swap|]. constructor. auto.
Qed.
Lemma sort_sites_perm : forall (l : list (A * nat)), Permutation l (sort_sites l).
Proof.
  induction l as [|p t IH]; simpl; auto. etransitivity; [constructor; exact IH|]. apply insert_site_perm.
Qed.
Lemma insert_site_sorted : forall (p : A * nat) l, StronglySorted site_le l -> StronglySorted site_le (insert_site p l).
Proof.
  induction l as [|q t IH]; intros H; simpl; [constructor; constructor|].
  destruct (Nat.leb_spec (snd p) (snd q)).
  - constructor; auto. inversion H; subst. constructor; auto. eapply Forall_impl; [|exact H4].
    intros a Ha. unfold site_le in *. lia.
  - inversion H; subst. constructor; auto. apply Forall_forall. intros a Ha.
    apply (Permutation_in a (Permutation_sym (insert_site_perm p t))) in Ha. destruct Ha as [<-|Ha].
    + unfold site_le. lia.
    + rewrite Forall_forall in H4. auto.
Qed.
Lemma sort_sites_sorted : forall (l : list (A * nat)), StronglySorted site_le (sort_sites l).
Proof. induction l; simpl; [constructor|]. apply insert_site_sorted. auto. Qed.
Lemma sort_sites_id : forall (l : list (A * nat)), StronglySorted site_le l -> sort_sites l = l.
Proof.
  induction l as [|p t IH]; intros H; simpl; auto. inversion H; subst. rewrite IH by auto.
  destruct t as [|q t]; simpl; auto. inversion H3; subst. unfold site_le in H4.
  apply Nat.leb_le in H4. rewrite H4. reflexivity.
Qed.
Lemma is_sorted_spec : forall l : list (A * nat), is_sorted (map snd l) = true -> StronglySorted site_le l.
Proof.
  intros l H. apply Sorted_StronglySorted; [intros a b c; unfold site_le; lia|].
  induction l as [|p t IH]; [constructor|]. destruct t as [|q t]; [constructor; constructor|].
  simpl in H. apply andb_true_iff in H. destruct H as [H1 H2]. apply Nat.leb_le in H1.
  constructor; [apply IH; simpl; auto|]. constructor. auto.
Qed.
Lemma sort_sites_map : forall B (f : A -> B) (l : list (A * nat)),
  sort_sites (map (fun p => (f (fst p), snd p)) l) = map (fun p => (f (fst p), snd p)) (sort_sites l).
Proof.
  intros B f. induction l as [|p t IH]; simpl; auto. rewrite IH. generalize (sort_sites t). clear.
  induction l as [|q l IH]; simpl; auto. destruct (snd p <=? snd q); simpl; congruence.
Qed.
End Sorting.

Lemma combine_fst_snd : forall A B (l : list (A * B)), combine (map fst l) (map snd l) = l.
Proof. induction l as [|[a b] t IH]; simpl; congruence. Qed.

Lemma Forall2_imp : forall A B (P Q : A -> B -> Prop) l l', (forall a b, P a b -> Q a b) -> Forall2 P l l' -> Forall2 Q l l'.
Proof. intros A B P Q l l' H F. induction F; constructor; auto. Qed.

Lemma Forall2_len : forall A B (P : A -> B -> Prop) l l', Forall2 P l l' -> length l = length l'.
Proof. intros A B P l l' F. induction F; simpl; auto. Qed.

(** *** Operators at sites *)
Section Facts.
Variables (R : Type) (r0 r1 : R) (ropp : R -> R) (reqb : R -> R -> bool) (isneg small : R -> bool).
Hypothesis reqb_spec : forall x y, reqb x y = true <-> x = y.
Notation lop := (lop R).
Notation lop_eqb := (lop_eqb R reqb).
Notation first_nz := (first_nz R r0 reqb).
Notation lop_neg := (lop_neg R ropp).
Notation add_term := (add_term R r0 ropp reqb isneg small).
Notation norm_ops := (norm_ops R r0 ropp reqb isneg).

Lemma lop_eqb_spec : forall a b : lop, lop_eqb a b = true <-> a = b.
Proof.
  intros [i a] [j b]. unfold MpoGen.lop_eqb. simpl. rewrite andb_true_iff, Nat.eqb_eq.
  rewrite (leqb_spec _ (leqb reqb)) by (apply leqb_spec; auto).
  split; [intros [-> ->]; auto|intros Q; injection Q; auto].
Qed.

(** sign-normalised operator and coefficient *)
Definition norm1 (o : lop) : lop := if isneg (first_nz o) then lop_neg o else o.
Definition ncoef (c : R) (ops : list lop) : R := fold_left (fun c o => if isneg (first_nz o) then ropp c else c) ops c.
Lemma norm_ops_eq : forall c ops, norm_ops c ops = (ncoef c ops, map norm1 ops).
Proof.
  intros c ops. unfold MpoGen.norm_ops, ncoef. change (map norm1 ops) with ([] ++ map norm1 ops). generalize (@nil lop).
  revert c. induction ops as [|o t IH]; intros c l; simpl; [rewrite app_nil_r; auto|].
  unfold norm_step at 2, norm1 at 1. simpl. destruct (isneg (first_nz o)); rewrite IH, <- app_assoc; reflexivity.
Qed.
Lemma ncoef_perm : forall ops ops', Permutation ops ops' -> forall c, ncoef c ops = ncoef c ops'.
Proof.
  intros ops ops' H. induction H; intros c; simpl; auto.
  - unfold ncoef. simpl. f_equal. destruct (isneg (first_nz x)), (isneg (first_nz y)); auto.
  - congruence.
Qed.

(** operator of a term on site [i]: the first one listed for that site, else the identity *)
Definition opf (idops : list lop) (P : list (lop * nat)) (i : nat) : lop :=
  match find (fun p => i =? snd p) P with Some p => fst p | None => nth i idops (mkLop 0 []) end.
Definition nrm (P : list (lop * nat)) : list (lop * nat) := map (fun p => (norm1 (fst p), snd p)) P.

Definition head_site (P : list (lop * nat)) : nat := match P with [] => 0 | p :: _ => snd p end.
Definition tail_site (P : list (lop * nat)) : nat := last (map snd P) 0.

(** a path of the state machine stands for coefficient [c] and operators [P] *)
Record tmatch (ch : list R) (oh idops : list lop) (n : nat) (t : term) (c : R) (P : list (lop * nat)) : Prop := mkTM {
  tm_wf : wfterm n t;
  tm_head : t_head t = head_site P;
  tm_tail : t_tail t = tail_site P;
  tm_first : exists l k, nth 0 (t_ops t) [] = [(l, [k])] /\ nth_error oh l = Some (opf idops P (t_head t)) /\
     nth_error ch k = Some c;
  tm_rest : forall i, t_head t < i <= t_tail t -> exists l, nth (i - t_head t) (t_ops t) [] = [(l, kId)] /\
     nth_error oh l = Some (opf idops P i)
}.

Definition ext {A} (l l' : list A) : Prop := exists e, l' = l ++ e.
Lemma ext_refl : forall A (l : list A), ext l l.
Proof. intros. exists []. rewrite app_nil_r. auto. Qed.
Lemma ext_trans : forall A (a b c : list A), ext a b -> ext b c -> ext a c.
Proof. intros A a b c [e ->] [f ->]. exists (e ++ f). rewrite app_assoc. auto. Qed.
Lemma ext_nth : forall A (l l' : list A) k x, ext l l' -> nth_error l k = Some x -> nth_error l' k = Some x.
Proof. intros A l l' k x [e ->] H. rewrite nth_error_app1; auto. apply nth_error_Some. congruence. Qed.

Lemma tmatch_ext : forall ch oh ch' oh' idops n t c P, ext ch ch' -> ext oh oh' ->
  tmatch ch oh idops n t c P -> tmatch ch' oh' idops n t c P.
Proof.
  intros ch oh ch' oh' idops n t c P E1 E2 [H1 H2 H3 H4 H5]. constructor; auto.
  - destruct H4 as [l [k [Q1 [Q2 Q3]]]]. exists l, k. split; auto. split; eapply ext_nth; eauto.
  - intros i Hi. destruct (H5 i Hi) as [l [Q1 Q2]]. exists l. split; auto. eapply ext_nth; eauto.
Qed.

Record ginv (sites : list nat) (idops : list lop) (H : list (R * list (lop * nat))) (g : gen R) : Prop := mkGI {
  gi_n : g_n g = length sites;
  gi_sites : g_sites g = sites;
  gi_idops : g_idops g = idops;
  gi_len : length idops = length sites;
  gi_c0 : nth_error (g_ch g) 0 = Some r1;
  gi_cd : NoDup (g_ch g);
  gi_od : NoDup (g_oh g);
  gi_fsm : exists idl ts, g_fsm g = fsm_of (length sites) (map op_of_label idl) ts /\
     Forall2 (fun l o => nth_error (g_oh g) l = Some o) idl idops /\
     Forall2 (fun t cp => tmatch (g_ch g) (g_oh g) idops (length sites) t (ncoef (fst cp) (map fst (snd cp)))
        (sort_sites (nrm (snd cp)))) ts H
}.

Lemma gen_id_reprs_spec : forall idops, exists idl, snd (gen_id_reprs R reqb idops) = map op_of_label idl /\
  NoDup (fst (gen_id_reprs R reqb idops)) /\
  Forall2 (fun l o => nth_error (fst (gen_id_reprs R reqb idops)) l = Some o) idl idops.
Proof.
  intros idops. unfold gen_id_reprs.
  assert (G : forall l hub reprs idl done, reprs = map op_of_label idl -> NoDup hub ->
    Forall2 (fun l o => nth_error hub l = Some o) idl done ->
    let r := fold_left (fun st o => let (hub, l) := convert lop_eqb (fst st) o in (hub, snd st ++ [op_of_label l])) l (hub, reprs) in
    exists idl', snd r = map op_of_label idl' /\ NoDup (fst r) /\ Forall2 (fun l o => nth_error (fst r) l = Some o) idl' (done ++ l)).
  { induction l as [|o l IH]; intros hub reprs idl done E ND F; simpl.
    - exists idl. rewrite app_nil_r. auto.
    - destruct (convert lop_eqb hub o) as [hub' k] eqn:EC.
      destruct (convert_spec _ _ lop_eqb_spec _ _ _ _ EC) as [EX [EN ED]].
      destruct (IH hub' (reprs ++ [op_of_label k]) (idl ++ [k]) (done ++ [o])) as [idl' Q].
      + rewrite map_app, E. reflexivity.
      + auto.
      + apply Forall2_app; [|constructor; auto]. eapply Forall2_imp; [|exact F]. intros a b Hab.
        cbv beta in *. eapply ext_nth; eauto.
      + rewrite <- app_assoc in Q. exists idl'. exact Q. }
  destruct (G idops [] [] [] [] eq_refl (NoDup_nil _) (Forall2_nil _)) as [idl Q]. exists idl. exact Q.
Qed.

Lemma ginv_new : forall sites idops, length idops = length sites -> ginv sites idops [] (gen_new R r1 reqb sites idops).
Proof.
  intros sites idops HL. unfold gen_new. destruct (gen_id_reprs_spec idops) as [idl [E1 [E2 E3]]].
  destruct (gen_id_reprs R reqb idops) as [oh ids]. simpl in *. constructor; simpl; auto.
  - constructor; auto. constructor.
  - exists idl, []. split; [rewrite <- fsm_of_nil; congruence|]. auto.
Qed.

Lemma sorted_head_tail : forall P : list (lop * nat), P <> [] -> StronglySorted (site_le lop) P ->
  head_site P <= tail_site P /\ (exists p, In p P /\ snd p = tail_site P) /\
  (forall p, In p P -> head_site P <= snd p <= tail_site P).
Proof.
  intros P HN HS. induction HS as [|p t HS IH HF]; [congruence|]. unfold tail_site in *. simpl head_site.
  destruct t as [|q t].
  - simpl. split; auto. split; [exists p; auto|]. intros p0 [<-|[]]. auto.
  - destruct IH as [I1 [[pl [I2 I3]] I4]]; [discriminate|]. simpl head_site in *.
    change (last (map snd (p :: q :: t)) 0) with (last (map snd (q :: t)) 0). inversion HF; subst. unfold site_le in *.
    split; [lia|]. split; [exists pl; split; auto; right; auto|].
    intros p0 [<-|Hp]; [lia|]. specialize (I4 p0 Hp). lia.
Qed.

Lemma opf_found : forall idops Q i k, find_idx (Nat.eqb i) (map snd Q) = Some k ->
  exists p, nth_error Q k = Some p /\ opf idops Q i = fst p /\ snd p = i.
Proof.
  intros idops Q i k H. pose proof (find_idx_find _ _ (Nat.eqb i) snd Q k H) as F.
  destruct (find_idx_some _ _ _ _ H) as [a [H1 [H2 _]]]. rewrite nth_error_map in H1.
  destruct (nth_error Q k) as [p|] eqn:E; [|discriminate]. simpl in H1. injection H1 as <-.
  exists p. split; auto. unfold opf. rewrite F. split; auto. apply Nat.eqb_eq in H2. auto.
Qed.

Lemma opf_missing : forall idops Q i, find_idx (Nat.eqb i) (map snd Q) = None -> opf idops Q i = nth i idops (mkLop 0 []).
Proof. intros idops Q i H. apply find_idx_find_none in H. unfold opf. rewrite H. reflexivity. Qed.

(** The loop that collects the path operators (mpogen_impl.h 141-156). *)
Lemma repr_loop : forall idops n Q cl oh, length idops = n -> Q <> [] -> StronglySorted (site_le lop) Q -> tail_site Q < n ->
  NoDup oh ->
  exists oh' reprs,
    for_loop (head_site Q) (tail_site Q + 1 - head_site Q) (fun i st =>
       match find_idx (Nat.eqb i) (map snd Q) with
       | Some k =>
           let! o := vget (map fst Q) k in
           let (hub, l) := convert lop_eqb (fst st) o in
           Ok (hub, snd st ++ [if k =? 0 then op_of_coef_label [cl] l else op_of_label l])
       | None =>
           let! o := vget idops i in
           let (hub, l) := convert lop_eqb (fst st) o in
           Ok (hub, snd st ++ [op_of_label l])
       end) (oh, []) = Ok (oh', reprs) /\
    ext oh oh' /\ NoDup oh' /\ length reprs = tail_site Q - head_site Q + 1 /\
    forall q, q < length reprs -> exists l, nth q reprs [] = [(l, if q =? 0 then [cl] else kId)] /\
      nth_error oh' l = Some (opf idops Q (head_site Q + q)).
Proof.
  intros idops n Q cl oh HL HN HS HT ND. destruct (sorted_head_tail Q HN HS) as [S1 [S2 S3]].
  set (h := head_site Q) in *. set (tl := tail_site Q) in *.
  match goal with |- context [for_loop h (tl + 1 - h) ?b (oh, [])] => set (body := b) end.
  destruct (for_loop_inv (list lop * list oprepr) (fun i st => ext oh (fst st) /\ NoDup (fst st) /\ length (snd st) = i - h /\
     forall q, q < length (snd st) -> exists l, nth q (snd st) [] = [(l, if q =? 0 then [cl] else kId)] /\
      nth_error (fst st) l = Some (opf idops Q (h + q))) body (tl + 1 - h) h (oh, [])) as [[oh' reprs] [E1 [E2 [E3 [E4 E5]]]]].
  - simpl. split; [apply ext_refl|]. split; auto. split; [lia|]. intros q Hq. lia.
  - intros i [hub reprs] Hi [A1 [A2 [A3 A4]]]. simpl in A1, A2, A3, A4.
    assert (G : forall o kk, opf idops Q i = o -> (kk = true <-> i = h) ->
      exists y, (let (hub', l) := convert lop_eqb hub o in
        Ok (hub', reprs ++ [if (kk : bool) then op_of_coef_label [cl] l else op_of_label l])) = Ok y /\
        ext oh (fst y) /\ NoDup (fst y) /\ length (snd y) = S i - h /\
        forall q, q < length (snd y) -> exists l, nth q (snd y) [] = [(l, if q =? 0 then [cl] else kId)] /\
        nth_error (fst y) l = Some (opf idops Q (h + q))).
    { intros o kk Ho Hkk. destruct (convert lop_eqb hub o) as [hub' l] eqn:EC.
      destruct (convert_spec _ _ lop_eqb_spec _ _ _ _ EC) as [EX [EN ED]].
      eexists. split; [reflexivity|]. cbn [fst snd]. split; [eapply ext_trans; eauto|]. split; auto.
      rewrite app_length. cbn [length]. split; [lia|]. intros q Hq.
      destruct (Nat.eq_dec q (length reprs)) as [->|Hne].
      - rewrite app_nth2, Nat.sub_diag by lia. simpl. exists l. rewrite A3. replace (h + (i - h)) with i by lia.
        rewrite Ho. split; auto. destruct kk.
        + replace (i - h) with 0 by (assert (i = h) by tauto; lia). reflexivity.
        + destruct (Nat.eqb_spec (i - h) 0); [|reflexivity]. assert (false = true) by (apply Hkk; lia). discriminate.
      - rewrite app_nth1 by lia. destruct (A4 q ltac:(lia)) as [l' [B1 B2]]. exists l'. split; auto.
        eapply ext_nth; eauto. }
    unfold body. simpl fst. simpl snd. destruct (find_idx (Nat.eqb i) (map snd Q)) as [k|] eqn:EF.
    + destruct (opf_found idops Q i k EF) as [p [B1 [B2 B3]]]. unfold vget. rewrite nth_error_map, B1. cbn [option_map bind].
      apply (G (fst p) (k =? 0)); auto. rewrite Nat.eqb_eq. split.
      * intros ->. destruct Q as [|p' Q']; [congruence|]. simpl in B1. injection B1 as ->. unfold h. simpl. auto.
      * intros ->. destruct k; auto. exfalso. destruct (find_idx_some _ _ _ _ EF) as [a [_ [_ C]]].
        destruct Q as [|p' Q']; [congruence|]. specialize (C 0 (snd p') ltac:(lia) eq_refl). unfold h in C. simpl in C.
        rewrite Nat.eqb_refl in C. discriminate.
    + assert (Hi2 : i < length idops) by lia. destruct (vget_ok _ _ _ Hi2) as [o [V1 V2]]. rewrite V1. cbn [bind].
      apply (G o false).
      * rewrite opf_missing by auto. apply nth_error_nth with (d := mkLop 0 []) in V2. auto.
      * split; [discriminate|]. intros ->. exfalso. destruct Q as [|p' Q']; [congruence|].
        pose proof (find_idx_none _ _ _ EF (snd p') ltac:(left; reflexivity)) as C. unfold h in C. simpl in C.
        rewrite Nat.eqb_refl in C. discriminate.
  - exists oh', reprs. simpl in *. split; auto. split; auto. split; auto. split; [lia|]. auto.
Qed.

Lemma nrm_fst : forall P, map fst (nrm P) = map norm1 (map fst P).
Proof. intros. unfold nrm. rewrite !map_map. reflexivity. Qed.
Lemma nrm_snd : forall P, map snd (nrm P) = map snd P.
Proof. intros. unfold nrm. rewrite map_map. reflexivity. Qed.
Lemma nrm_in : forall P p, In p (nrm P) -> exists q, In q P /\ snd q = snd p.
Proof. intros P p H. apply in_map_iff in H. destruct H as [q [<- H]]. exists q. auto. Qed.

Lemma assert_t : forall dbg, assert_ dbg true = Ok tt.
Proof. destruct dbg; reflexivity. Qed.

Lemma last_In : forall (l : list nat) d, l <> [] -> In (last l d) l.
Proof.
  induction l as [|a t IH]; intros d H; [congruence|]. destruct t; [left; auto|]. right. apply IH. discriminate.
Qed.

Lemma add_term_spec : forall dbg g sites idops H c P, ginv sites idops H g -> P <> [] ->
  Forall (fun p => nth_error sites (snd p) = Some (lo_ix (fst p))) P -> reqb c r0 = false -> small c = false ->
  exists g', add_term dbg g c (map fst P) (map snd P) = Ok g' /\ ginv sites idops (H ++ [(c, P)]) g'.
Proof.
  intros dbg g sites idops H c P GI HN HF Hc Hs. destruct GI as [N1 N2 N3 N4 C0 CD OD [idl [ts [F1 [F2 F3]]]]].
  unfold MpoGen.add_term. rewrite !map_length, Nat.eqb_refl, assert_t. cbn [bind]. rewrite Hc, Hs.
  (* debug loop *)
  match goal with |- context [if dbg then ?x else Ok tt] => assert (E0 : (if dbg then x else Ok tt) = Ok tt) end.
  { destruct dbg; auto.
    destruct (for_loop_inv unit (fun _ _ => True) (fun i u => let! o := vget (map fst P) i in
       let! s := vget (map snd P) i in let! ix := vget (g_sites g) s in assert_ true (ix =? lo_ix o)) (length P) 0 tt) as [[] [E _]]; auto.
    intros i [] Hi _. assert (Hi' : i < length P) by lia. destruct (vget_ok _ _ _ Hi') as [p [_ V]].
    unfold vget. rewrite !nth_error_map, V. cbn [option_map bind]. rewrite Forall_forall in HF.
    rewrite N2, (HF p) by (eapply nth_error_In; eauto). cbn [bind]. rewrite Nat.eqb_refl. eexists. split; [reflexivity|]. auto. }
  rewrite E0. cbn [bind].
  (* sorting *)
  match goal with |- context [bind ?x _] => assert (E1 : x = Ok (map fst (sort_sites P), map snd (sort_sites P))) end.
  { destruct (is_sorted (map snd P)) eqn:ES.
    - rewrite sort_sites_id by (apply is_sorted_spec; auto). reflexivity.
    - rewrite combine_fst_snd. reflexivity. }
  rewrite E1. cbn [bind].
  set (Q := sort_sites (nrm P)).
  assert (EQ : Q = nrm (sort_sites P)) by (unfold Q, nrm; apply sort_sites_map).
  assert (PQ : Permutation (nrm P) Q) by apply sort_sites_perm.
  assert (SQ : StronglySorted (site_le lop) Q) by apply sort_sites_sorted.
  assert (HNQ : Q <> []).
  { intro Z. rewrite Z in PQ. apply Permutation_sym, Permutation_nil in PQ. destruct P; [congruence|discriminate]. }
  destruct (sorted_head_tail Q HNQ SQ) as [S1 [[pl [S2 S2']] S3]].
  assert (HT : tail_site Q < length sites).
  { apply (Permutation_in pl (Permutation_sym PQ)) in S2. apply nrm_in in S2. destruct S2 as [q [Hq Hq']].
    rewrite Forall_forall in HF. specialize (HF q Hq). rewrite <- S2', <- Hq'. apply nth_error_Some. congruence. }
  assert (Es : map snd (sort_sites P) = map snd Q) by (rewrite EQ, nrm_snd; reflexivity).
  rewrite Es. rewrite norm_ops_eq. rewrite <- nrm_fst, <- EQ.
  assert (Ec : ncoef c (map fst (sort_sites P)) = ncoef c (map fst P)).
  { apply ncoef_perm. apply Permutation_map, Permutation_sym, sort_sites_perm. }
  rewrite Ec. fold (tail_site Q).
  destruct (map snd Q) as [|h rest] eqn:EM; [destruct Q; [congruence|discriminate]|].
  rewrite <- EM. assert (Eh : h = head_site Q) by (destruct Q; [discriminate|simpl in EM; injection EM; auto]).
  rewrite Eh, N1. fold (tail_site Q). rewrite (proj2 (Nat.ltb_lt _ _) HT), assert_t. cbn [bind].
  destruct (convert reqb (g_ch g) (ncoef c (map fst P))) as [ch cl] eqn:EC.
  destruct (convert_spec _ _ reqb_spec _ _ _ _ EC) as [X1 [X2 X3]].
  destruct (repr_loop idops (length sites) Q cl (g_oh g) N4 HNQ SQ HT OD) as [oh' [reprs [L1 [L2 [L3 [L4 L5]]]]]].
  rewrite N3, L1. cbn [bind]. rewrite L4, Nat.eqb_refl, assert_t. cbn [bind].
  set (t := mkTerm (head_site Q) (tail_site Q) reprs).
  assert (WT : wfterm (length sites) t) by (unfold wfterm, t; simpl; lia).
  rewrite F1. change (head_site Q) with (t_head t). change (tail_site Q) with (t_tail t). change reprs with (t_ops t).
  rewrite add_path_spec; auto; [|rewrite map_length, (Forall2_len _ _ _ _ _ F2); auto]. cbn [bind].
  eexists. split; [reflexivity|]. constructor; cbn [g_n g_sites g_idops g_ch g_oh g_fsm]; auto.
  - eapply ext_nth; eauto.
  - exists idl, (ts ++ [t]). split; auto. split.
    + eapply Forall2_imp; [|exact F2]. intros a b Hab. eapply ext_nth; eauto.
    + apply Forall2_app.
      * eapply Forall2_imp; [|exact F3]. intros a b Hab. eapply tmatch_ext; eauto.
      * constructor; auto. simpl. fold Q. constructor; auto.
        -- destruct (L5 0 ltac:(lia)) as [l [B1 B2]]. simpl in B1. exists l, cl. rewrite Nat.add_0_r in B2. auto.
        -- intros i Hi. simpl in Hi. destruct (L5 (i - head_site Q) ltac:(lia)) as [l [B1 B2]]. exists l.
           replace (head_site Q + (i - head_site Q)) with i in B2 by lia. split; auto. simpl. rewrite B1.
           destruct (Nat.eqb_spec (i - head_site Q) 0); [lia|reflexivity].
Qed.
End Facts.
