(** The heap model of the containers refines the value specification, over every history. *)
From Coq Require Import List Arith Lia Bool String Permutation.
From Verif Require Import Base DuoVec DuoSpec.
Import ListNotations.

Lemma Forall2_upd : forall A B (P : A -> B -> Prop) l m i x y, Forall2 P l m -> P x y -> Forall2 P (upd l i x) (upd m i y).
Proof.
  intros A B P l m i x y H. revert i. induction H; intros i HP; destruct i; simpl; auto.
Qed.
Lemma Forall2_nth : forall A B (P : A -> B -> Prop) l m i x, Forall2 P l m -> nth_error l i = Some x -> exists y, nth_error m i = Some y /\ P x y.
Proof.
  intros A B P l m i x H. revert i. induction H; intros i HI; destruct i; simpl in HI; try discriminate; [injection HI as <-; simpl; eauto|]. simpl. auto.
Qed.
Lemma Forall2_nth_none : forall A B (P : A -> B -> Prop) l m i, Forall2 P l m -> nth_error l i = None -> nth_error m i = None.
Proof. intros A B P l m i H E. apply nth_error_None in E. apply nth_error_None. clear - H E. revert i E. induction H; intros; simpl in *; [lia|]. destruct i; [lia|]. assert (List.length l' <= i) by (apply IHForall2; lia). lia. Qed.
Lemma Forall2_lenS : forall A B (P : A -> B -> Prop) l m, Forall2 P l m -> List.length l = List.length m.
Proof. intros A B P l m H. induction H; simpl; auto. Qed.
Lemma Forall2_weak : forall A B (P Q : A -> B -> Prop) l m, (forall x y, In x l -> P x y -> Q x y) -> Forall2 P l m -> Forall2 Q l m.
Proof. intros A B P Q l m H F. induction F; constructor; [apply H; simpl; auto|apply IHF; intros; apply H; simpl; auto]. Qed.
Lemma upd_split : forall A (l1 l2 : list A) x y, upd (l1 ++ x :: l2) (List.length l1) y = l1 ++ y :: l2.
Proof. induction l1; intros; simpl; auto. f_equal. auto. Qed.
Lemma upd_upd : forall A (l : list A) i x y, upd (upd l i x) i y = upd l i y.
Proof. induction l; intros; simpl; auto. destruct i; simpl; auto. f_equal. auto. Qed.
Lemma upd_same : forall A (l : list A) i x, nth_error l i = Some x -> upd l i x = l.
Proof. induction l; intros i x H; destruct i; simpl in *; try discriminate; [injection H as <-; auto|]. f_equal. auto. Qed.
Lemma upd_comm : forall A (l : list A) i j x y, i <> j -> upd (upd l i x) j y = upd (upd l j y) i x.
Proof. induction l; intros i j x y H; destruct i, j; simpl; auto; [congruence|]. f_equal. auto. Qed.
Lemma perm_upd : forall A (l : list A) i x, nth_error l i = Some x -> exists r, Permutation l (x :: r) /\ forall y, Permutation (upd l i y) (y :: r).
Proof.
  intros A l i x H. destruct (nth_error_split l i H) as [l1 [l2 [E1 E2]]]. subst l i. exists (l1 ++ l2). split.
  - symmetry. apply Permutation_middle.
  - intros y. rewrite upd_split. symmetry. apply Permutation_middle.
Qed.
Lemma perm_upd_swap : forall A (l : list A) i j x y, nth_error l i = Some x -> nth_error l j = Some y -> Permutation (upd (upd l i y) j x) l.
Proof.
  intros A l i j x y Hi Hj. destruct (Nat.eq_dec i j) as [->|N].
  - rewrite Hi in Hj. injection Hj as <-. rewrite (upd_same _ l j x Hi), (upd_same _ l j x Hi). auto.
  - destruct (perm_upd _ _ _ _ Hi) as [r [P1 P2]].
    assert (Hj' : nth_error (upd l i y) j = Some y) by (rewrite nth_error_upd_other; auto).
    destruct (perm_upd _ _ _ _ Hj') as [r' [Q1 Q2]]. rewrite Q2, P1. specialize (P2 y). rewrite P2 in Q1. apply Permutation_cons_inv in Q1. rewrite Q1. auto.
Qed.

Lemma exch_app : forall A (l : list A) c e x n, c < List.length l -> n = List.length l -> upd (upd (l ++ [e]) c e) n x = upd l c e ++ [x].
Proof.
  intros A l c e x n H ->. assert (UA : upd (l ++ [e]) c e = upd l c e ++ [e]).
  { revert c H. induction l as [|q l IH]; intros c H; simpl in *; [lia|]. destruct c; simpl; auto. f_equal. apply IH. lia. }
  rewrite UA. rewrite <- (upd_length _ l c e). apply upd_split.
Qed.
Section Facts.
Variable V : Type.
Variable dflt : V.
Notation world := (world V). Notation heap := (heap V). Notation aworld := (aworld V).
Notation slot_shows := (slot_shows V).
Notation hp := (hp V). Notation objs := (objs V). Notation fs := (fs V). Notation conts := (conts V). Notation afs := (afs V).
Definition os (s : slots) : list addr := flat_map (fun p => match p with Some a => [a] | None => [] end) s.
Definition own (h : heap) (l : list addr) : Prop := NoDup l /\ forall a, In a l <-> exists v, nth_error h a = Some (Some v).

Lemma own_perm : forall h l l', Permutation l l' -> own h l -> own h l'.
Proof.
  intros h l l' P [H1 H2]. split; [eapply Permutation_NoDup; eauto|]. intros a. rewrite <- H2. split; intros H; [eapply Permutation_in; [symmetry; exact P|auto]|eapply Permutation_in; eauto].
Qed.
Lemma own_new : forall h l v, own h l -> own (h ++ [Some v]) (List.length h :: l).
Proof.
  intros h l v [H1 H2]. split.
  - constructor; auto. intros H. apply H2 in H. destruct H as [u H]. assert (List.length h < List.length h) by (apply nth_error_Some; congruence). lia.
  - intros a. simpl. split.
    + intros [<-|H]; [exists v; rewrite nth_error_app2, Nat.sub_diag by lia; auto|]. apply H2 in H. destruct H as [u H]. exists u.
      rewrite nth_error_app1; auto. apply nth_error_Some. congruence.
    + intros [u H]. destruct (Nat.lt_ge_cases a (List.length h)) as [L|L].
      * right. apply H2. exists u. rewrite nth_error_app1 in H; auto.
      * left. assert (a < List.length (h ++ [Some v])) by (apply nth_error_Some; congruence). rewrite app_length in H0. simpl in H0. lia.
Qed.
Lemma own_delete : forall h l a, own h (a :: l) -> h_delete V a h = Ok (upd h a None) /\ own (upd h a None) l /\
  forall b, b <> a -> nth_error (upd h a None) b = nth_error h b.
Proof.
  intros h l a [H1 H2]. assert (LV : exists v, nth_error h a = Some (Some v)) by (apply H2; left; auto). destruct LV as [v LV].
  assert (La : a < List.length h) by (apply nth_error_Some; congruence).
  inversion H1 as [|? ? N1 N2]. subst x l0. split; [unfold h_delete; rewrite LV; auto|]. split; [|intros; apply nth_error_upd_other; auto].
  split; auto. intros b. destruct (Nat.eq_dec b a) as [->|N].
  - rewrite nth_error_upd_same by auto. split; [contradiction|]. intros [u E]. discriminate.
  - rewrite nth_error_upd_other by auto. rewrite <- H2. simpl. split; [auto|]. intros [E|E]; [congruence|auto].
Qed.
Lemma own_write : forall h l a v, own h l -> In a l -> h_write V a v h = Ok (upd h a (Some v)) /\ own (upd h a (Some v)) l.
Proof.
  intros h l a v [H1 H2] HI. pose proof (proj1 (H2 a) HI) as [u LV]. assert (La : a < List.length h) by (apply nth_error_Some; congruence).
  split; [unfold h_write; rewrite LV; auto|]. split; auto. intros b. destruct (Nat.eq_dec b a) as [->|N].
  - rewrite nth_error_upd_same by auto. split; eauto.
  - rewrite nth_error_upd_other by auto. apply H2.
Qed.
Definition agree (l : list addr) (h h' : heap) : Prop := forall a, In a l -> nth_error h' a = nth_error h a.
Lemma shows_agree : forall h h' s y, agree (os s) h h' -> Forall2 (slot_shows h) s y -> Forall2 (slot_shows h') s y.
Proof.
  intros h h' s y HA H. eapply Forall2_weak; [|exact H]. intros p x HI HP. destruct p as [a|], x as [v|]; simpl in *; auto.
  rewrite HA; auto. apply in_flat_map. exists (Some a). simpl. auto.
Qed.
Lemma shows_os : forall h s y a, Forall2 (slot_shows h) s y -> In a (os s) -> exists v, nth_error h a = Some (Some v).
Proof.
  intros h s y a H. induction H as [|p x s y HP H IH]; simpl; [contradiction|]. intros HI. apply in_app_or in HI. destruct HI as [HI|HI]; auto.
  destruct p as [b|]; simpl in HI; [|contradiction]. destruct HI as [<-|[]]. destruct x as [v|]; simpl in HP; [|contradiction]. eauto.
Qed.

Lemma delete_ok : forall s h l, own h (os s ++ l) -> exists h', delete_slots V s h = Ok h' /\ own h' l /\ agree l h h'.
Proof.
  induction s as [|p s IH]; intros h l H; simpl.
  - exists h. split; auto. split; [exact H|]. intros a _. auto.
  - destruct p as [a|]; simpl in *.
    + destruct (own_delete _ _ _ H) as [D1 [D2 D3]]. rewrite D1. cbn [bind]. destruct (IH _ _ D2) as [h' [E1 [E2 E3]]]. exists h'. split; auto. split; auto.
      intros b Hb. rewrite E3 by auto. apply D3. intros ->. destruct H as [H _]. inversion H. apply H2. apply in_or_app. auto.
    + apply IH. exact H.
Qed.
Lemma copy_ok : forall s y h l, own h l -> Forall2 (slot_shows h) s y ->
  exists t ext, copy_slots V s h = Ok (t, h ++ ext) /\ own (h ++ ext) (os t ++ l) /\ Forall2 (slot_shows (h ++ ext)) t y.
Proof.
  intros s y h l HO H. revert h l HO H. revert y. induction s as [|p s IH]; intros y h l HO H; inversion H as [|? x ? y' HP HR]; subst.
  - exists [], []. rewrite app_nil_r. simpl. auto.
  - destruct p as [a|]; destruct x as [v|]; simpl in HP; try contradiction.
    + simpl. unfold h_read. rewrite HP. cbn [bind].
      assert (HR' : Forall2 (slot_shows (h ++ [Some v])) s y').
      { eapply shows_agree; [|exact HR]. intros b Hb. destruct (shows_os _ _ _ _ HR Hb) as [u Eu]. apply nth_error_app1. apply nth_error_Some. congruence. }
      destruct (IH y' (h ++ [Some v]) (List.length h :: l) (own_new _ _ v HO) HR') as [t [ext [E1 [E2 E3]]]]. rewrite E1. cbn [bind].
      exists (Some (List.length h) :: t), (Some v :: ext). rewrite <- app_assoc in *. split; auto. split.
      * simpl. eapply own_perm; [|exact E2]. symmetry. apply Permutation_middle.
      * constructor; auto. simpl. rewrite nth_error_app2, Nat.sub_diag by lia. reflexivity.
    + simpl. destruct (IH y' h l HO HR) as [t [ext [E1 [E2 E3]]]]. rewrite E1. cbn [bind]. exists (None :: t), ext. split; [auto|]. split; [auto|]. constructor; simpl; auto.
Qed.

Definition cshow (h : heap) (o : option slots) (x : option (vals V)) : Prop :=
  match o, x with None, None => True | Some s, Some y => Forall2 (slot_shows h) s y | _, _ => False end.
Definition oo (s : option slots) : list addr := match s with Some l => os l | None => [] end.
Definition good (w : world) (a : aworld) : Prop := exact_ownership V w /\ shows V w a.
Lemma good_own : forall w a, good w a <-> own (hp w) (flat_map oo (objs w)) /\
  Forall2 (cshow (hp w)) (objs w) (conts a) /\ forall n, f_read V n (fs w) = afs a n.
Proof. intros. unfold good, exact_ownership, shows. unfold own, owned, live. split; intros [H1 H2]; split; auto. Qed.
Notation ow l := (flat_map oo l).
Lemma cshow_agree : forall h h' l m, agree (ow l) h h' -> Forall2 (cshow h) l m -> Forall2 (cshow h') l m.
Proof.
  intros h h' l m HA H. eapply Forall2_weak; [|exact H]. intros o x HI HP. destruct o as [s|], x as [y|]; simpl in *; auto.
  eapply shows_agree; [|exact HP]. intros a Ha. apply HA. apply in_flat_map. exists (Some s). auto.
Qed.
(** working on one container *)
Lemma good_focus : forall w a c s, good w a -> nth_error (objs w) c = Some (Some s) -> exists y rest,
  nth_error (conts a) c = Some (Some y) /\ own (hp w) (os s ++ rest) /\ Forall2 (slot_shows (hp w)) s y /\
  forall h' s' y' f af, own h' (oo s' ++ rest) -> agree rest (hp w) h' -> cshow h' s' y' -> (forall n, f_read V n f = af n) ->
    good (mkWorld V h' (upd (objs w) c s') f) (mkA V (upd (conts a) c y') af).
Proof.
  intros w a c s HG HC. apply (proj1 (good_own _ _)) in HG. destruct HG as [G1 [G2 G3]]. destruct (Forall2_nth _ _ _ _ _ _ _ G2 HC) as [x [X1 X2]].
  destruct x as [y|]; simpl in X2; [|contradiction]. destruct (nth_error_split _ _ HC) as [l1 [l2 [E1 E2]]].
  exists y, (ow l1 ++ ow l2). split; auto. split; [|split; auto].
  - eapply own_perm; [|exact G1]. rewrite E1, flat_map_app. simpl. rewrite !app_assoc. apply Permutation_app_tail. apply Permutation_app_comm.
  - intros h' s' y' f af O1 O2 O3 O4. apply (proj2 (good_own _ _)). cbn [DuoVec.hp DuoVec.objs DuoVec.fs DuoSpec.conts DuoSpec.afs]. split; [|split; auto].
    + rewrite E1, <- E2, upd_split, flat_map_app. simpl. eapply own_perm; [|exact O1]. rewrite !app_assoc. apply Permutation_app_tail. apply Permutation_app_comm.
    + rewrite E1 in *. rewrite <- E2 in *. apply Forall2_app_inv_l in G2. destruct G2 as [m1 [m2 [F1 [F2 F3]]]]. inversion F2 as [|? x2 ? m2' F4 F5]. subst. 
      rewrite F3. rewrite upd_split. rewrite (Forall2_lenS _ _ _ _ _ F1), upd_split. apply Forall2_app.
      * eapply cshow_agree; [|exact F1]. intros b Hb. apply O2. apply in_or_app. auto.
      * constructor; auto. eapply cshow_agree; [|exact F5]. intros b Hb. apply O2. apply in_or_app. auto.
Qed.
Lemma good_add : forall w a t y h' f af, good w a -> own h' (os t ++ ow (objs w)) -> agree (ow (objs w)) (hp w) h' -> Forall2 (slot_shows h') t y ->
  (forall n, f_read V n f = af n) -> good (mkWorld V h' (objs w ++ [Some t]) f) (mkA V (conts a ++ [Some y]) af).
Proof.
  intros w a t y h' f af HG O1 O2 O3 O4. apply (proj1 (good_own _ _)) in HG. destruct HG as [G1 [G2 G3]]. apply (proj2 (good_own _ _)).
  cbn [DuoVec.hp DuoVec.objs DuoVec.fs DuoSpec.conts DuoSpec.afs]. split; [|split; auto].
  - rewrite flat_map_app. simpl. rewrite app_nil_r. eapply own_perm; [|exact O1]. apply Permutation_app_comm.
  - apply Forall2_app; [eapply cshow_agree; [exact O2|exact G2]|]. constructor; auto.
Qed.
(** exchanging the contents of two containers *)
Lemma good_exchange : forall w a c d s t y z, good w a -> nth_error (objs w) c = Some s -> nth_error (objs w) d = Some t ->
  nth_error (conts a) c = Some y -> nth_error (conts a) d = Some z ->
  good (mkWorld V (hp w) (upd (upd (objs w) c t) d s) (fs w)) (mkA V (upd (upd (conts a) c z) d y) (afs a)).
Proof.
  intros w a c d s t y z HG C1 C2 C3 C4. apply (proj1 (good_own _ _)) in HG. destruct HG as [G1 [G2 G3]]. apply (proj2 (good_own _ _)).
  cbn [DuoVec.hp DuoVec.objs DuoVec.fs DuoSpec.conts DuoSpec.afs]. split; [|split; auto].
  - eapply own_perm; [|exact G1]. apply Permutation_flat_map. symmetry. apply perm_upd_swap; auto.
  - destruct (Forall2_nth _ _ _ _ _ _ _ G2 C1) as [y' [Y1 Y2]]. destruct (Forall2_nth _ _ _ _ _ _ _ G2 C2) as [z' [Z1 Z2]].
    rewrite C3 in Y1. injection Y1 as <-. rewrite C4 in Z1. injection Z1 as <-. apply Forall2_upd; auto. apply Forall2_upd; auto.
Qed.

Lemma obj_cases : forall w a c, good w a ->
  (exists s y, obj V w c = Ok s /\ acont V a c = Ok y /\ nth_error (objs w) c = Some (Some s) /\ nth_error (conts a) c = Some (Some y)) \/
  (obj V w c = Ub /\ acont V a c = Ub).
Proof.
  intros w a c HG. apply (proj1 (good_own _ _)) in HG. destruct HG as [_ [G2 _]]. unfold obj, acont, vget. destruct (nth_error (objs w) c) as [o|] eqn:E.
  - destruct (Forall2_nth _ _ _ _ _ _ _ G2 E) as [x [X1 X2]]. rewrite X1. destruct o as [s|], x as [y|]; simpl in X2; try contradiction; simpl; [left; exists s, y; auto|auto].
  - rewrite (Forall2_nth_none _ _ _ _ _ _ G2 E). auto.
Qed.
Lemma set_obj_ok : forall w c s o, nth_error (objs w) c = Some o -> set_obj V c s w = Ok (mkWorld V (hp w) (upd (objs w) c s) (fs w)).
Proof. intros w c s o H. unfold set_obj. rewrite vset_ok; auto. apply nth_error_Some. congruence. Qed.
Lemma os_repeat : forall n, os (repeat None n) = [].
Proof. induction n; simpl; auto. Qed.
Lemma shows_repeat : forall h n, Forall2 (slot_shows h) (repeat None n) (repeat None n).
Proof. induction n; simpl; constructor; simpl; auto. Qed.
Lemma agree_refl : forall l h, agree l h h.
Proof. intros l h a H. auto. Qed.
Lemma agree_app : forall l h e, (forall a, In a l -> exists v, nth_error h a = Some (Some v)) -> agree l h (h ++ e).
Proof. intros l h e H a Ha. destruct (H a Ha) as [v E]. apply nth_error_app1. apply nth_error_Some. congruence. Qed.
Lemma own_live : forall h l1 l2 a, own h (l1 ++ l2) -> In a l2 -> exists v, nth_error h a = Some (Some v).
Proof. intros h l1 l2 a H Ha. apply H. apply in_or_app. auto. Qed.

(** one slot of a container *)
Lemma os_slot : forall s i p, nth_error s i = Some p -> exists r, Permutation (os s) (os [p] ++ r) /\ forall q, Permutation (os (upd s i q)) (os [q] ++ r).
Proof.
  intros s i p H. destruct (perm_upd _ _ _ _ H) as [r [P1 P2]]. exists (os r). split.
  - unfold os. rewrite (Permutation_flat_map _ P1). simpl. rewrite app_nil_r. auto.
  - intros q. unfold os. rewrite (Permutation_flat_map _ (P2 q)). simpl. rewrite app_nil_r. auto.
Qed.
(** replace one slot: new pointer q showing x, heap h' *)
Lemma slot_good : forall w a c s y i p, good w a -> nth_error (objs w) c = Some (Some s) -> nth_error (conts a) c = Some (Some y) -> nth_error s i = Some p ->
  exists r, own (hp w) (os [p] ++ r) /\
  forall h' q x f af, own h' (os [q] ++ r) -> agree r (hp w) h' -> slot_shows h' q x -> (forall n, f_read V n f = af n) ->
    good (mkWorld V h' (upd (objs w) c (Some (upd s i q))) f) (mkA V (upd (conts a) c (Some (upd y i x))) af).
Proof.
  intros w a c s y i p HG HC HY HI. destruct (good_focus w a c s HG HC) as [y' [rest [F1 [F2 [F3 F4]]]]]. rewrite HY in F1. injection F1 as <-.
  destruct (nth_error_split _ _ HI) as [s1 [s2 [E1 E2]]]. subst s i.
  exists (os s1 ++ os s2 ++ rest). split.
  - eapply own_perm; [|exact F2]. unfold os. rewrite flat_map_app. simpl. rewrite app_nil_r. fold (os s1) (os s2). rewrite <- !app_assoc.
    apply Permutation_app_swap_app.
  - intros h' q x f af O1 O2 O3 O4. rewrite upd_split. apply F4; auto.
    + simpl. unfold os at 1. rewrite flat_map_app. simpl. fold (os s1) (os s2). eapply own_perm; [|exact O1]. simpl. rewrite app_nil_r. rewrite <- !app_assoc.
      apply Permutation_app_swap_app.
    + intros b Hb. apply O2. apply in_or_app. right. apply in_or_app. auto.
    + simpl. apply Forall2_app_inv_l in F3. destruct F3 as [y1 [y2 [A1 [A2 A3]]]]. inversion A2 as [|? x2 ? y2' A4 A5]. subst.
      rewrite (Forall2_lenS _ _ _ _ _ A1), upd_split. apply Forall2_app.
      * eapply shows_agree; [|exact A1]. intros b Hb. apply O2. apply in_or_app. auto.
      * constructor; auto. eapply shows_agree; [|exact A5]. intros b Hb. apply O2. apply in_or_app. right. apply in_or_app. auto.
Qed.
Lemma files_of : forall w a, good w a -> forall n, f_read V n (fs w) = afs a n.
Proof. intros w a HG. apply (proj1 (good_own _ _)) in HG. apply HG. Qed.
Lemma slots_of : forall w a c s y, good w a -> nth_error (objs w) c = Some (Some s) -> nth_error (conts a) c = Some (Some y) -> Forall2 (slot_shows (hp w)) s y.
Proof. intros w a c s y HG H1 H2. apply (proj1 (good_own _ _)) in HG. destruct HG as [_ [G _]]. destruct (Forall2_nth _ _ _ _ _ _ _ G H1) as [x [X1 X2]]. rewrite H2 in X1. injection X1 as <-. exact X2. Qed.

Definition rel {A B} (P : A -> B -> Prop) (x : res A) (y : res B) : Prop :=
  match x, y with Ok a, Ok b => P a b | Ub, Ub => True | Abort, Abort => True | _, _ => False end.

Lemma aset_self : forall (a : aworld) c y, nth_error (conts a) c = Some (Some y) -> mkA V (upd (conts a) c (Some y)) (afs a) = a.
Proof. intros a c y H. destruct a as [cs f]. simpl in *. f_equal. apply upd_same. exact H. Qed.
Lemma wself : forall (w : world) c s i p, nth_error (objs w) c = Some (Some s) -> nth_error s i = Some p -> upd (objs w) c (Some (upd s i p)) = objs w.
Proof. intros w c s i p H1 H2. rewrite (upd_same _ s i p H2). apply upd_same. exact H1. Qed.
(** replace *)
Lemma replace_ok : forall w a c i v, good w a ->
  rel good (op_replace V c i v w) (let! s := acont V a c in if i <? List.length s then Ok (aset V c (Some (upd s i (Some v))) a) else Ub).
Proof.
  intros w a c i v HG. unfold op_replace. destruct (obj_cases w a c HG) as [[s [y [E1 [E2 [E3 E4]]]]]|[E1 E2]]; rewrite E1, E2; cbn [bind]; [|exact I].
  pose proof (slots_of _ _ _ _ _ HG E3 E4) as SL. rewrite <- (Forall2_lenS _ _ _ _ _ SL). unfold vget. destruct (nth_error s i) as [p|] eqn:EI.
  - assert (Li : i < List.length s) by (apply nth_error_Some; congruence). destruct (Nat.ltb_spec i (List.length s)); [|lia]. cbn [bind].
    destruct (slot_good _ _ _ _ _ _ _ HG E3 E4 EI) as [r [S1 S2]]. unfold aset.
    assert (D : exists h, p_delete V p (hp w) = Ok h /\ own h r /\ agree r (hp w) h).
    { destruct p as [b|]; simpl in *.
      - destruct (own_delete _ _ _ S1) as [D1 [D2 D3]]. exists (upd (hp w) b None). split; auto. split; auto. intros x Hx. apply D3. intros ->. destruct S1 as [N _]. inversion N. auto.
      - exists (hp w). split; auto. split; auto. apply agree_refl. }
    destruct D as [h [D1 [D2 D3]]]. rewrite D1. cbn [bind]. unfold h_new. rewrite vset_ok by auto. cbn [bind].
    rewrite (set_obj_ok _ _ _ (Some s)) by exact E3. simpl. apply S2.
    + simpl. apply own_new. auto.
    + intros x Hx. rewrite nth_error_app1; [apply D3; auto|]. destruct (proj1 (proj2 D2 x) Hx) as [u Eu]. apply nth_error_Some. congruence.
    + simpl. rewrite nth_error_app2, Nat.sub_diag by lia. reflexivity.
    + apply files_of with (1 := HG).
  - assert (List.length s <= i) by (apply nth_error_None; auto). destruct (Nat.ltb_spec i (List.length s)); [lia|]. exact I.
Qed.
Lemma dealloc_ok : forall w a c i, good w a ->
  rel good (op_dealloc V c i w) (let! s := acont V a c in if i <? List.length s then Ok (aset V c (Some (upd s i None)) a) else Ub).
Proof.
  intros w a c i HG. unfold op_dealloc. destruct (obj_cases w a c HG) as [[s [y [E1 [E2 [E3 E4]]]]]|[E1 E2]]; rewrite E1, E2; cbn [bind]; [|exact I].
  pose proof (slots_of _ _ _ _ _ HG E3 E4) as SL. rewrite <- (Forall2_lenS _ _ _ _ _ SL). unfold vget. destruct (nth_error s i) as [p|] eqn:EI.
  - assert (Li : i < List.length s) by (apply nth_error_Some; congruence). destruct (Nat.ltb_spec i (List.length s)); [|lia]. cbn [bind].
    destruct (slot_good _ _ _ _ _ _ _ HG E3 E4 EI) as [r [S1 S2]]. unfold aset. destruct p as [b|].
    + destruct (own_delete _ _ _ S1) as [D1 [D2 D3]]. rewrite D1. cbn [bind]. rewrite vset_ok by auto. cbn [bind].
      rewrite (set_obj_ok _ _ _ (Some s)) by exact E3. simpl. apply S2; auto.
      * intros x Hx. apply D3. intros ->. destruct S1 as [N _]. inversion N. auto.
      * simpl. auto.
      * apply files_of with (1 := HG).
    + simpl. destruct (Forall2_nth _ _ _ _ _ _ _ SL EI) as [x [X1 X2]]. destruct x; simpl in X2; [contradiction|]. rewrite (upd_same _ y i None X1).
      exact (eq_ind_r (good w) HG (aset_self a c y E4)).
  - assert (List.length s <= i) by (apply nth_error_None; auto). destruct (Nat.ltb_spec i (List.length s)); [lia|]. exact I.
Qed.
(** non-const access *)
Lemma ref_ok : forall w a c i, good w a ->
  match op_ref V dflt c i w, acont V a c with
  | Ok (p, w'), Ok y => exists s o, nth_error y i = Some o /\ good w' (aset V c (Some (upd y i (Some (slot_or V dflt o)))) a) /\
       nth_error (objs w') c = Some (Some s) /\ nth_error s i = Some (Some p) /\ fs w' = fs w
  | Ub, Ok y => nth_error y i = None
  | Ub, Ub => True
  | _, _ => False
  end.
Proof.
  intros w a c i HG. unfold op_ref. destruct (obj_cases w a c HG) as [[s [y [E1 [E2 [E3 E4]]]]]|[E1 E2]]; rewrite E1, E2; cbn [bind]; [|exact I].
  pose proof (slots_of _ _ _ _ _ HG E3 E4) as SL. unfold vget. destruct (nth_error s i) as [p|] eqn:EI; cbn [bind].
  - destruct (Forall2_nth _ _ _ _ _ _ _ SL EI) as [x [X1 X2]]. assert (Li : i < List.length s) by (apply nth_error_Some; congruence).
    destruct (slot_good _ _ _ _ _ _ _ HG E3 E4 EI) as [r [S1 S2]]. unfold aset. destruct p as [b|], x as [v|]; simpl in X2; try contradiction.
    + exists s, (Some v). split; auto. cbn [slot_or]. rewrite (upd_same _ y i (Some v) X1). split; auto.
      exact (eq_ind_r (good w) HG (aset_self a c y E4)).
    + unfold h_new. rewrite vset_ok by auto. cbn [bind]. rewrite (set_obj_ok _ _ _ (Some s)) by exact E3. cbn [bind].
      exists (upd s i (Some (List.length (hp w)))), None. split; auto. split.
      * simpl. apply S2; auto.
        -- simpl. apply own_new. auto.
        -- apply agree_app. intros b Hb. apply (own_live _ _ _ _ S1 Hb).
        -- simpl. rewrite nth_error_app2, Nat.sub_diag by lia. reflexivity.
        -- apply files_of with (1 := HG).
      * simpl. split; [apply nth_error_upd_same; apply nth_error_Some; congruence|]. split; auto. apply nth_error_upd_same. auto.
  - eapply Forall2_nth_none; eauto.
Qed.
Lemma aset_aset : forall a c s t, aset V c s (aset V c t a) = aset V c s a.
Proof. intros. unfold aset. simpl. rewrite upd_upd. reflexivity. Qed.
Lemma put_ok : forall w a c i v, good w a ->
  rel good (op_put V dflt c i v w) (let! s := acont V a c in if i <? List.length s then Ok (aset V c (Some (upd s i (Some v))) a) else Ub).
Proof.
  intros w a c i v HG. unfold op_put. pose proof (ref_ok w a c i HG) as H. destruct (op_ref V dflt c i w) as [[p w']| |]; destruct (acont V a c) as [y| |] eqn:EA; try contradiction; cbn [bind]; auto.
  - destruct H as [s [o [H1 [H2 [H3 [H4 H5]]]]]]. assert (Li : i < List.length y) by (apply nth_error_Some; congruence). destruct (Nat.ltb_spec i (List.length y)); [|lia].
    assert (EC : c < List.length (conts a)). { unfold acont in EA. destruct (nth_error (conts a) c) eqn:E; [apply nth_error_Some; congruence|discriminate]. }
    assert (E4 : nth_error (conts (aset V c (Some (upd y i (Some (slot_or V dflt o)))) a)) c = Some (Some (upd y i (Some (slot_or V dflt o))))) by (simpl; apply nth_error_upd_same; auto).
    destruct (slot_good _ _ _ _ _ _ _ H2 H3 E4 H4) as [r [S1 S2]].
    destruct (own_write _ _ p v S1) as [W1 W2]; [simpl; auto|]. rewrite W1. cbn [bind].
    assert (NP : ~ In p r) by (destruct S1 as [N _]; inversion N; auto).
    specialize (S2 (upd (hp w') p (Some v)) (Some p) (Some v) (fs w') (afs a)).
    rewrite (wself w' c s i (Some p) H3 H4) in S2. simpl in S2. rewrite !upd_upd in S2. simpl. apply S2; auto.
    + intros b Hb. apply nth_error_upd_other. intros ->. auto.
    + apply nth_error_upd_same. apply nth_error_Some. destruct (proj1 (proj2 S1 p)) as [u Eu]; [simpl; auto|congruence].
    + rewrite H5. apply files_of with (1 := HG).
  - destruct (Nat.ltb_spec i (List.length y)); [|exact I]. apply nth_error_None in H. lia.
Qed.
Lemma touch_ok : forall w a c i, good w a ->
  rel (fun x y => fst x = fst y /\ good (snd x) (snd y)) (op_touch V dflt c i w)
    (let! s := acont V a c in match nth_error s i with Some o => Ok (slot_or V dflt o, aset V c (Some (upd s i (Some (slot_or V dflt o)))) a) | None => Ub end).
Proof.
  intros w a c i HG. unfold op_touch. pose proof (ref_ok w a c i HG) as H. destruct (op_ref V dflt c i w) as [[p w']| |]; destruct (acont V a c) as [y| |] eqn:EA; try contradiction; cbn [bind]; auto.
  - destruct H as [s [o [H1 [H2 [H3 [H4 H5]]]]]]. rewrite H1.
    assert (EC : c < List.length (conts a)). { unfold acont in EA. destruct (nth_error (conts a) c) eqn:E; [apply nth_error_Some; congruence|discriminate]. }
    assert (E4 : nth_error (conts (aset V c (Some (upd y i (Some (slot_or V dflt o)))) a)) c = Some (Some (upd y i (Some (slot_or V dflt o))))) by (simpl; apply nth_error_upd_same; auto).
    pose proof (slots_of _ _ _ _ _ H2 H3 E4) as SL. destruct (Forall2_nth _ _ _ _ _ _ _ SL H4) as [x [X1 X2]].
    rewrite nth_error_upd_same in X1 by (apply nth_error_Some; congruence). injection X1 as <-. simpl in X2. unfold h_read. rewrite X2. simpl. auto.
  - rewrite H. exact I.
Qed.
Lemma get_ok : forall w a c i, good w a ->
  op_get V c i w = (let! s := acont V a c in match nth_error s i with Some (Some v) => Ok v | _ => Ub end).
Proof.
  intros w a c i HG. unfold op_get. destruct (obj_cases w a c HG) as [[s [y [E1 [E2 [E3 E4]]]]]|[E1 E2]]; rewrite E1, E2; cbn [bind]; [|reflexivity].
  pose proof (slots_of _ _ _ _ _ HG E3 E4) as SL. unfold vget. destruct (nth_error s i) as [p|] eqn:EI; cbn [bind].
  - destruct (Forall2_nth _ _ _ _ _ _ _ SL EI) as [x [X1 X2]]. rewrite X1. destruct p as [b|], x as [v|]; simpl in X2; try contradiction; cbn [bind p_deref]; auto.
    unfold h_read. rewrite X2. reflexivity.
  - rewrite (Forall2_nth_none _ _ _ _ _ _ SL EI). reflexivity.
Qed.
Lemma set_files_good : forall w a f af, good w a -> (forall n, f_read V n f = af n) -> good (mkWorld V (hp w) (objs w) f) (mkA V (conts a) af).
Proof. intros w a f af HG H. apply (proj1 (good_own _ _)) in HG. apply (proj2 (good_own _ _)). simpl. destruct HG as [G1 [G2 G3]]. auto. Qed.
Lemma f_write_ok : forall f n v m, f_read V m (f_write V n v f) = if String.eqb m n then Some v else f_read V m f.
Proof. intros. reflexivity. Qed.
Lemma f_remove_ok : forall f n m, f_read V m (f_remove V n f) = if String.eqb m n then None else f_read V m f.
Proof.
  induction f as [|[k v] f IH]; intros n m; simpl; [destruct (String.eqb m n); auto|]. destruct (String.eqb_spec n k) as [<-|N]; simpl.
  - rewrite IH. destruct (String.eqb m n); auto.
  - rewrite IH. destruct (String.eqb_spec m k) as [->|]; auto. destruct (String.eqb_spec k n); auto. congruence.
Qed.
Lemma clear_ok : forall w a c, good w a ->
  rel good (op_clear V c w) (let! s := acont V a c in Ok (aset V c (Some (repeat None (List.length s))) a)).
Proof.
  intros w a c HG. unfold op_clear. destruct (obj_cases w a c HG) as [[s [y [E1 [E2 [E3 E4]]]]]|[E1 E2]]; rewrite E1, E2; cbn [bind]; [|exact I].
  assert (EC : c < List.length (conts a)) by (apply nth_error_Some; congruence).
  pose proof (Forall2_lenS _ _ _ _ _ (slots_of _ _ _ _ _ HG E3 E4)) as LS.
  destruct (for_loop_inv _ (fun j w' => good w' (aset V c (Some (repeat None j ++ skipn j y)) a)) (op_dealloc V c) (List.length s) 0 w) as [w' [W1 W2]].
  - exact (eq_ind_r (good w) HG (aset_self a c y E4)).
  - intros i w' Hi G. pose proof (dealloc_ok w' _ c i G) as D. unfold acont at 1 in D. simpl in D. rewrite nth_error_upd_same in D by auto. cbn [bind] in D.
    rewrite app_length, repeat_length, skipn_length in D. destruct (Nat.ltb_spec i (i + (List.length y - i))); [|lia]. unfold rel in D.
    destruct (op_dealloc V c i w') as [w''| |]; try contradiction. exists w''. split; auto.
    rewrite aset_aset in D. 
    assert (EU : upd (repeat None i ++ skipn i y) i None = repeat (@None V) (S i) ++ skipn (S i) y).
    { assert (SK : exists x, skipn i y = x :: skipn (S i) y).
      { clear - Hi LS. assert (i < List.length y) by lia. clear Hi LS. revert i H. induction y as [|x y IH]; intros i H; simpl in H; [lia|]. destruct i; [simpl; eauto|]. simpl. apply IH. lia. }
      destruct SK as [x SK]. rewrite SK. pose proof (upd_split _ (repeat (@None V) i) (skipn (S i) y) x None) as U. rewrite repeat_length in U. rewrite U.
      replace (S i) with (i + 1) at 2 by lia. rewrite repeat_app, <- app_assoc. reflexivity. }
    rewrite EU in D. exact D.
  - rewrite W1. simpl. rewrite skipn_all2, app_nil_r in W2 by lia. rewrite LS in W2. exact W2.
Qed.

Theorem step_ok : forall o w a, good w a -> rel (fun x y => fst x = fst y /\ good (snd x) (snd y)) (step V dflt o w) (astep V dflt o a).
Proof.
  intros o w a HG. pose proof (files_of _ _ HG) as HF.
  destruct o as [n|c|c d|c|c d|c|c i|c i v|c i|c i v|c i j|c i|c i|c|c|c|c|c|c i n|c i n|c i n rl|n]; cbn [step astep].
  - (* new *) simpl. split; auto. unfold new_obj, aadd. apply good_add; auto.
    + rewrite os_repeat. apply (proj1 (good_own w a)) in HG. apply HG.
    + apply agree_refl.
    + apply shows_repeat.
  - (* copy *) unfold op_copy. destruct (obj_cases w a c HG) as [[s [y [E1 [E2 [E3 E4]]]]]|[E1 E2]]; rewrite E1, E2; cbn [bind]; [|exact I].
    pose proof (slots_of _ _ _ _ _ HG E3 E4) as SL. pose proof (proj1 (proj1 (good_own w a) HG)) as OW.
    destruct (copy_ok s y (hp w) _ OW SL) as [t [ext [C1 [C2 C3]]]]. rewrite C1. simpl. split; auto. apply (good_add w a t y (hp w ++ ext) (fs w) (afs a)); auto.
    apply agree_app. intros b Hb. apply OW. auto.
  - (* assign *) unfold op_assign. destruct (obj_cases w a c HG) as [[s [y [E1 [E2 [E3 E4]]]]]|[E1 E2]]; rewrite E1, E2; cbn [bind]; [|exact I].
    destruct (obj_cases w a d HG) as [[t [z [D1 [D2 [D3 D4]]]]]|[D1 D2]]; rewrite D1, D2; cbn [bind]; [|exact I].
    destruct (good_focus w a c s HG E3) as [y' [rest [F1 [F2 [F3 F4]]]]]. rewrite E4 in F1. injection F1 as <-.
    destruct (delete_ok _ _ _ F2) as [h [X1 [X2 X3]]]. rewrite X1. cbn [bind].
    rewrite (set_obj_ok _ _ _ (Some s)) by exact E3. cbn [bind].
    assert (LN : List.length t = List.length z) by (eapply Forall2_lenS; apply (slots_of _ _ _ _ _ HG D3 D4)).
    assert (G1 : good (mkWorld V h (upd (objs w) c (Some (repeat None (List.length t)))) (fs w)) (mkA V (upd (conts a) c (Some (repeat None (List.length z)))) (afs a))).
    { apply F4; auto; simpl; [rewrite os_repeat; auto|rewrite LN; apply shows_repeat]. }
    set (w1 := mkWorld V h (upd (objs w) c (Some (repeat None (List.length t)))) (fs w)) in *.
    change (mkWorld V (hp (set_hp V h w)) (upd (objs (set_hp V h w)) c (Some (repeat None (List.length t)))) (fs (set_hp V h w))) with w1.
    assert (LC : c < List.length (objs w)) by (apply nth_error_Some; congruence).
    assert (LA : c < List.length (conts a)) by (apply nth_error_Some; congruence).
    assert (C1 : nth_error (objs w1) c = Some (Some (repeat None (List.length t)))) by (simpl; apply nth_error_upd_same; auto).
    destruct (Nat.eqb_spec c d) as [->|NE].
    + rewrite D3 in E3. injection E3 as ->. unfold obj at 1. unfold vget. rewrite C1. cbn [bind].
      assert (CP : forall n g, copy_slots V (repeat None n) g = Ok (repeat None n, g)) by (induction n as [|n IHn]; intros g; simpl; [auto|rewrite IHn; auto]).
      rewrite CP. cbn [bind]. rewrite (set_obj_ok _ _ _ (Some (repeat None (List.length s)))) by exact C1. simpl. split; auto. unfold aset. simpl.
      rewrite upd_upd. rewrite E4 in D4. injection D4 as <-. exact G1.
    + assert (N1 : nth_error (objs w1) d = Some (Some t)) by (simpl; rewrite nth_error_upd_other; auto).
      unfold obj at 1. unfold vget. rewrite N1. cbn [bind].
      assert (SL : Forall2 (slot_shows (hp w1)) t z) by (apply (slots_of _ _ d _ _ G1 N1); simpl; rewrite nth_error_upd_other; auto).
      destruct (copy_ok t z (hp w1) rest X2 SL) as [t' [ext [K1 [K2 K3]]]]. rewrite K1. cbn [bind].
      rewrite (set_obj_ok _ _ _ (Some (repeat None (List.length t)))) by exact C1. simpl. split; auto. unfold aset. rewrite upd_upd.
      apply F4; auto. intros b Hb. simpl. rewrite nth_error_app1; [apply X3; auto|]. destruct (proj1 (proj2 X2 b) Hb) as [u Eu]. apply nth_error_Some. congruence.
  - (* move *) unfold op_move. destruct (obj_cases w a c HG) as [[s [y [E1 [E2 [E3 E4]]]]]|[E1 E2]]; rewrite E1, E2; cbn [bind]; [|exact I].
    rewrite (set_obj_ok _ _ _ (Some s)) by exact E3. simpl. split; auto. unfold new_obj, aadd, aset. simpl.
    assert (G1 : good (mkWorld V (hp w) (objs w ++ [Some []]) (fs w)) (mkA V (conts a ++ [Some []]) (afs a))).
    { apply good_add; auto; first [exact (proj1 (proj1 (good_own w a) HG))|apply agree_refl|constructor]. }
    assert (LC : c < List.length (objs w)) by (apply nth_error_Some; congruence).
    assert (LA : c < List.length (conts a)) by (apply nth_error_Some; congruence).
    assert (LL : List.length (objs w) = List.length (conts a)) by (apply (proj1 (good_own w a)) in HG; destruct HG as [_ [G _]]; eapply Forall2_lenS; eauto).
    pose proof (good_exchange _ _ c (List.length (objs w)) (Some s) (Some []) (Some y) (Some []) G1) as X. simpl in X.
    rewrite nth_error_app1, nth_error_app2, nth_error_app1, nth_error_app2, LL, Nat.sub_diag in X by lia. specialize (X E3 eq_refl E4 eq_refl).
    pose proof (exch_app _ (objs w) c (Some []) (Some s) (List.length (conts a)) LC (eq_sym LL)) as U1.
    pose proof (exch_app _ (conts a) c (Some []) (Some y) (List.length (conts a)) LA eq_refl) as U2.
    unfold slots, vals in *. rewrite U1, U2 in X. exact X.
  - (* move assign *) unfold op_move_assign. destruct (obj_cases w a c HG) as [[s [y [E1 [E2 [E3 E4]]]]]|[E1 E2]]; rewrite E1, E2; cbn [bind]; [|exact I].
    destruct (obj_cases w a d HG) as [[t [z [D1 [D2 [D3 D4]]]]]|[D1 D2]]; rewrite D1, D2; cbn [bind]; [|exact I].
    destruct (good_focus w a c s HG E3) as [y' [rest [F1 [F2 [F3 F4]]]]]. rewrite E4 in F1. injection F1 as <-.
    destruct (delete_ok _ _ _ F2) as [h [X1 [X2 X3]]]. rewrite X1. cbn [bind].
    rewrite (set_obj_ok _ _ _ (Some s)) by exact E3. cbn [bind].
    assert (LC : c < List.length (objs w)) by (apply nth_error_Some; congruence).
    assert (LD : d < List.length (objs w)) by (apply nth_error_Some; congruence).
    assert (LA : c < List.length (conts a)) by (apply nth_error_Some; congruence).
    unfold set_obj. simpl. rewrite vset_ok by (rewrite upd_length; auto). simpl. split; auto. unfold aset. simpl.
    assert (G1 : good (mkWorld V h (upd (objs w) c (Some [])) (fs w)) (mkA V (upd (conts a) c (Some [])) (afs a))) by (apply F4; simpl; auto).
    destruct (Nat.eq_dec c d) as [->|NE]; [rewrite !upd_upd; exact G1|].
    pose proof (good_exchange _ _ c d (Some []) (Some t) (Some []) (Some z) G1) as X. simpl in X.
    rewrite !nth_error_upd_same, !nth_error_upd_other, !upd_upd in X by auto. apply X; auto.
  - (* destroy *) unfold op_destroy. destruct (obj_cases w a c HG) as [[s [y [E1 [E2 [E3 E4]]]]]|[E1 E2]]; rewrite E1, E2; cbn [bind]; [|exact I].
    destruct (good_focus w a c s HG E3) as [y' [rest [F1 [F2 [F3 F4]]]]]. destruct (delete_ok _ _ _ F2) as [h [X1 [X2 X3]]]. rewrite X1. cbn [bind].
    rewrite (set_obj_ok _ _ _ (Some s)) by exact E3. simpl. split; auto. apply F4; simpl; auto.
  - (* get *) rewrite (get_ok w a c i HG). destruct (acont V a c) as [s| |]; cbn [bind]; try exact I. destruct (nth_error s i) as [[v|]|]; simpl; auto.
  - (* put *) pose proof (put_ok w a c i v HG) as H. destruct (op_put V dflt c i v w); destruct (acont V a c) as [s| |]; cbn [bind] in *; try contradiction; auto;
      destruct (i <? List.length s); simpl in *; try contradiction; auto.
  - (* touch *) pose proof (touch_ok w a c i HG) as H. destruct (op_touch V dflt c i w) as [[v w']| |]; destruct (acont V a c) as [s| |]; cbn [bind] in *; try contradiction; auto;
      destruct (nth_error s i); simpl in *; try contradiction; auto. destruct H as [-> H]. auto.
  - (* replace *) pose proof (replace_ok w a c i v HG) as H. destruct (op_replace V c i v w); destruct (acont V a c) as [s| |]; cbn [bind] in *; try contradiction; auto;
      destruct (i <? List.length s); simpl in *; try contradiction; auto.
  - (* swap *) unfold op_swap. destruct (obj_cases w a c HG) as [[s [y [E1 [E2 [E3 E4]]]]]|[E1 E2]]; rewrite E1, E2; cbn [bind]; [|exact I].
    pose proof (slots_of _ _ _ _ _ HG E3 E4) as SL. unfold vget. destruct (nth_error s i) as [p|] eqn:EI; cbn [bind].
    + destruct (Forall2_nth _ _ _ _ _ _ _ SL EI) as [x [X1 X2]]. rewrite X1. destruct (nth_error s j) as [q|] eqn:EJ; cbn [bind].
      * destruct (Forall2_nth _ _ _ _ _ _ _ SL EJ) as [u [U1 U2]]. rewrite U1.
        rewrite vset_ok by (apply nth_error_Some; congruence). cbn [bind]. rewrite vset_ok by (rewrite upd_length; apply nth_error_Some; congruence). cbn [bind].
        rewrite (set_obj_ok _ _ _ (Some s)) by exact E3. simpl. split; auto. unfold aset.
        destruct (good_focus w a c s HG E3) as [y' [rest [F1 [F2 [F3 F4]]]]]. rewrite E4 in F1. injection F1 as <-. apply F4; auto.
        -- eapply own_perm; [|exact F2]. apply Permutation_app_tail. unfold os. simpl. apply Permutation_flat_map. symmetry. apply perm_upd_swap; auto.
        -- apply agree_refl.
        -- simpl. apply Forall2_upd; auto. apply Forall2_upd; auto.
      * rewrite (Forall2_nth_none _ _ _ _ _ _ SL EJ). exact I.
    + rewrite (Forall2_nth_none _ _ _ _ _ _ SL EI). exact I.
  - (* alloc *) unfold op_alloc. pose proof (replace_ok w a c i dflt HG) as H. destruct (op_replace V c i dflt w); destruct (acont V a c) as [s| |]; cbn [bind] in *; try contradiction; auto;
      destruct (i <? List.length s); simpl in *; try contradiction; auto.
  - (* dealloc *) pose proof (dealloc_ok w a c i HG) as H. destruct (op_dealloc V c i w); destruct (acont V a c) as [s| |]; cbn [bind] in *; try contradiction; auto;
      destruct (i <? List.length s); simpl in *; try contradiction; auto.
  - (* clear *) pose proof (clear_ok w a c HG) as H. destruct (op_clear V c w); destruct (acont V a c) as [s| |]; cbn [bind] in *; try contradiction; auto. simpl. auto.
  - (* front *) unfold op_front. rewrite (get_ok w a c 0 HG). destruct (acont V a c) as [s| |]; cbn [bind]; try exact I. destruct s as [|[v|] s]; simpl; auto.
  - (* back *) unfold op_back. destruct (obj_cases w a c HG) as [[s [y [E1 [E2 [E3 E4]]]]]|[E1 E2]]; rewrite E1, E2; cbn [bind]; [|exact I].
    pose proof (Forall2_lenS _ _ _ _ _ (slots_of _ _ _ _ _ HG E3 E4)) as LS. rewrite LS.
    destruct y as [|x y'] using rev_ind; [simpl; exact I|]. clear IHy'. rewrite app_length. simpl. rewrite Nat.add_1_r. rewrite (get_ok w a c _ HG), E2. cbn [bind].
    rewrite nth_error_app2, Nat.sub_diag by lia. simpl. rewrite rev_app_distr. simpl. destruct x; simpl; auto.
  - (* empty *) unfold op_empty. destruct (obj_cases w a c HG) as [[s [y [E1 [E2 [E3 E4]]]]]|[E1 E2]]; rewrite E1, E2; cbn [bind]; [|exact I]. simpl. split; auto. f_equal.
    pose proof (slots_of _ _ _ _ _ HG E3 E4) as SL. clear - SL. induction SL as [|p x s y H SL IH]; simpl; auto. rewrite IH. destruct p, x; simpl in H; try contradiction; auto.
  - (* size *) unfold op_size. destruct (obj_cases w a c HG) as [[s [y [E1 [E2 [E3 E4]]]]]|[E1 E2]]; rewrite E1, E2; cbn [bind]; [|exact I]. simpl. split; auto.
    rewrite (Forall2_lenS _ _ _ _ _ (slots_of _ _ _ _ _ HG E3 E4)). auto.
  - (* load *) unfold op_load, op_alloc. pose proof (replace_ok w a c i dflt HG) as H. destruct (op_replace V c i dflt w) as [w1| |] eqn:ER; destruct (acont V a c) as [s| |] eqn:EA; cbn [bind] in *; try contradiction; auto;
      destruct (Nat.ltb_spec i (List.length s)); simpl in H; try contradiction; cbn [bind]; auto.
    pose proof (files_of _ _ H n) as HF1. rewrite HF1. simpl. destruct (afs a n) as [v|] eqn:EF; cbn [bind]; [|simpl; auto].
    pose proof (put_ok w1 _ c i v H) as HP.
    assert (EC : c < List.length (conts a)). { unfold acont in EA. destruct (nth_error (conts a) c) eqn:E; [apply nth_error_Some; congruence|discriminate]. }
    unfold acont in HP. simpl in HP. rewrite nth_error_upd_same in HP by auto. cbn [bind] in HP. rewrite upd_length in HP.
    destruct (Nat.ltb_spec i (List.length s)); [|lia]. unfold rel in HP. destruct (op_put V dflt c i v w1) as [w2| |]; try contradiction. simpl. split; auto.
    rewrite aset_aset, upd_upd in HP. exact HP.
  - (* dump const *) unfold op_dump_const. rewrite (get_ok w a c i HG). destruct (acont V a c) as [s| |]; cbn [bind]; try exact I. destruct (nth_error s i) as [[v|]|]; simpl; auto.
    split; auto. apply set_files_good; auto. intros m. rewrite f_write_ok. unfold fset. rewrite HF. reflexivity.
  - (* dump *) unfold op_dump. pose proof (touch_ok w a c i HG) as H. destruct (op_touch V dflt c i w) as [[v w1]| |]; destruct (acont V a c) as [s| |] eqn:EA; cbn [bind] in *; try contradiction; auto;
      destruct (nth_error s i) as [o|] eqn:EI; simpl in H; try contradiction; cbn [bind]; auto. destruct H as [-> H].
    pose proof (files_of _ _ H) as HF1. simpl in HF1.
    assert (G1 : good (set_fs V (f_write V n (slot_or V dflt o) (fs w1)) w1) (mkA V (upd (conts a) c (Some (upd s i (Some (slot_or V dflt o))))) (fset V n (Some (slot_or V dflt o)) (afs a)))).
    { pose proof (set_files_good w1 _ (f_write V n (slot_or V dflt o) (fs w1)) (fset V n (Some (slot_or V dflt o)) (afs a)) H) as X. apply X.
      intros m. rewrite f_write_ok, HF1. reflexivity. }
    destruct rl; [|simpl; auto].
    assert (EC : c < List.length (conts a)). { unfold acont in EA. destruct (nth_error (conts a) c) eqn:E; [apply nth_error_Some; congruence|discriminate]. }
    pose proof (dealloc_ok _ _ c i G1) as HD. unfold acont in HD. simpl in HD. rewrite nth_error_upd_same in HD by auto. cbn [bind] in HD. rewrite upd_length in HD.
    destruct (Nat.ltb_spec i (List.length s)); [|apply nth_error_None in H0; congruence]. unfold rel in HD.
    destruct (op_dealloc V c i _) as [w2| |]; try contradiction. simpl. split; auto. unfold aset in HD. simpl in HD. rewrite !upd_upd in HD. exact HD.
  - (* remove *) simpl. split; auto. apply set_files_good; auto. intros m. rewrite f_remove_ok. unfold fset. rewrite HF. reflexivity.
Qed.
Lemma good0 : good (w0 V) (a0 V).
Proof.
  apply (proj2 (good_own _ _)). simpl. split; [|split; auto]. split; [constructor|]. intros a. simpl. split; [contradiction|]. intros [v E]. destruct a; discriminate.
Qed.
Theorem runs_ok : forall l w a, good w a -> rel (fun x y => fst x = fst y /\ good (snd x) (snd y)) (runs V dflt l w) (aruns V dflt l a).
Proof.
  induction l as [|o l IH]; intros w a HG; simpl; [auto|]. pose proof (step_ok o w a HG) as H.
  destruct (step V dflt o w) as [[x w1]| |]; destruct (astep V dflt o a) as [[x' a1]| |]; simpl in H; try contradiction; cbn [bind]; try exact I.
  destruct H as [<- H]. pose proof (IH w1 a1 H) as H2. destruct (runs V dflt l w1) as [[xs w2]| |]; destruct (aruns V dflt l a1) as [[xs' a2]| |]; simpl in H2; try contradiction; cbn [bind]; try exact I.
  destruct H2 as [<- H2]. simpl. auto.
Qed.
End Facts.
