(** Facts about the sparse matrix model: refinement to partial functions [nat -> nat -> option E]. *)
From Coq Require Import List Arith Lia Bool.
From Verif Require Import Base SparMat.
Import ListNotations.

Lemma off_inj : forall c r y r' y', y < c -> y' < c -> r * c + y = r' * c + y' -> r = r' /\ y = y'.
Proof.
  intros c r y r' y' H H' Heq.
  assert (r = r'). { destruct (Nat.lt_trichotomy r r') as [L|[L|L]]; auto; exfalso; nia. }
  subst. split; auto. lia.
Qed.

Lemma off_lt : forall n c r y, r < n -> y < c -> r * c + y < n * c.
Proof. intros. nia. Qed.

Lemma off_ex : forall n c o, o < n * c -> exists r y, r < n /\ y < c /\ o = r * c + y.
Proof.
  intros n c o H. assert (c <> 0) by (intro; subst; lia).
  exists (o / c), (o mod c). repeat split.
  - apply Nat.div_lt_upper_bound; lia.
  - apply Nat.mod_upper_bound; auto.
  - rewrite (Nat.div_mod o c) at 1 by auto. lia.
Qed.

Section Facts.
Variable E : Type.
Variable nullE : E.
Variable eqE : E -> E -> bool.

Notation get := (get nullE).
Notation set_elem := (set_elem nullE eqE).

(** Slot content of an in-range position. *)
Definition look (m : mat E) (r c : nat) : option E :=
  match nth_error (idxs m) (offset m r c) with
  | Some (Some k) => nth_error (data m) k
  | _ => None
  end.

Definition oget (o : option E) : E := match o with Some e => e | None => nullE end.

Record wf (m : mat E) : Prop := {
  wf_len : length (idxs m) = rows m * cols m;
  wf_bnd : forall o k, nth_error (idxs m) o = Some (Some k) -> k < length (data m);
  wf_inj : forall o1 o2 k, nth_error (idxs m) o1 = Some (Some k) ->
           nth_error (idxs m) o2 = Some (Some k) -> o1 = o2;
  wf_nn  : forall k e, nth_error (data m) k = Some e -> eqE e nullE = false
}.

Lemma idx_some : forall m r c, wf m -> r < rows m -> c < cols m ->
  exists i, nth_error (idxs m) (offset m r c) = Some i.
Proof.
  intros m r c W Hr Hc. destruct (nth_error (idxs m) (offset m r c)) eqn:E0; eauto.
  apply nth_error_None in E0. rewrite (wf_len _ W) in E0. unfold offset in E0.
  pose proof (off_lt _ _ _ _ Hr Hc). lia.
Qed.

Lemma get_look : forall m r c, wf m -> r < rows m -> c < cols m ->
  get m r c = Ok (oget (look m r c)).
Proof.
  intros m r c W Hr Hc. destruct (idx_some m r c W Hr Hc) as [i Hi].
  unfold SparMat.get, look, vget. rewrite Hi. simpl. destruct i as [k|]; simpl; auto.
  destruct (nth_error (data m) k) eqn:Ek; simpl; auto.
  apply nth_error_None in Ek. apply (wf_bnd _ W) in Hi. lia.
Qed.

Lemma look_nn : forall m r c e, wf m -> look m r c = Some e -> eqE e nullE = false.
Proof.
  intros m r c e W H. unfold look in H.
  destruct (nth_error (idxs m) (offset m r c)) as [[k|]|]; try discriminate.
  eapply wf_nn; eauto.
Qed.

Lemma is_null_look : forall m r c, wf m -> r < rows m -> c < cols m ->
  is_null m r c = Ok (match look m r c with None => true | Some _ => false end).
Proof.
  intros m r c W Hr Hc. destruct (idx_some m r c W Hr Hc) as [i Hi].
  unfold SparMat.is_null, look, vget. rewrite Hi. simpl. destruct i as [k|]; simpl; auto.
  destruct (nth_error (data m) k) eqn:Ek; simpl; auto.
  apply nth_error_None in Ek. apply (wf_bnd _ W) in Hi. lia.
Qed.

Lemma wf_empty : wf mat_empty.
Proof.
  constructor; simpl; auto; intros.
  - destruct o; discriminate.
  - destruct o1; discriminate.
  - destruct k; discriminate.
Qed.

Lemma nth_error_repeat_some : forall A (a : A) n o x, nth_error (repeat a n) o = Some x -> x = a.
Proof.
  intros. apply nth_error_In in H. apply repeat_spec in H. auto.
Qed.

Lemma wf_new : forall r c, wf (mat_new r c).
Proof.
  intros. constructor; simpl; intros.
  - apply repeat_length.
  - apply nth_error_repeat_some in H. discriminate.
  - apply nth_error_repeat_some in H. discriminate.
  - destruct k; discriminate.
Qed.

Lemma look_new : forall r c x y, look (mat_new r c) x y = None.
Proof.
  intros. unfold look. simpl.
  destruct (nth_error (repeat None (r * c)) _) as [[k|]|] eqn:H; auto.
  destruct k; reflexivity.
Qed.

Lemma offset_eqb : forall c r y r' y', y < c -> y' < c ->
  (r * c + y =? r' * c + y') = (r =? r') && (y =? y').
Proof.
  intros. destruct (Nat.eqb_spec (r * c + y) (r' * c + y')).
  - apply off_inj in e; auto. destruct e; subst. rewrite !Nat.eqb_refl. reflexivity.
  - destruct (Nat.eqb_spec r r'); simpl; auto. subst. symmetry. apply Nat.eqb_neq. lia.
Qed.

Lemma set_elem_spec : forall m r c e, wf m -> r < rows m -> c < cols m ->
  exists m', set_elem m r c e = Ok m' /\ wf m' /\ rows m' = rows m /\ cols m' = cols m /\
    forall r' c', c' < cols m ->
      look m' r' c' = if negb (eqE e nullE) && (r =? r') && (c =? c') then Some e else look m r' c'.
Proof.
  intros m r c e W Hr Hc. unfold SparMat.set_elem.
  destruct (eqE e nullE) eqn:Ee.
  { exists m. split; auto. }
  destruct (idx_some m r c W Hr Hc) as [i Hi].
  assert (Hlt : offset m r c < length (idxs m)) by (apply nth_error_Some; congruence).
  unfold vget. rewrite Hi. simpl. destruct i as [k|].
  - assert (Hk : k < length (data m)) by (eapply wf_bnd; eauto).
    rewrite vset_ok by auto. simpl. eexists; split; [reflexivity|].
    split; [|split;[|split]]; simpl; auto.
    + constructor; simpl.
      * apply (wf_len _ W).
      * intros o k' H. rewrite upd_length. eapply wf_bnd; eauto.
      * apply (wf_inj _ W).
      * intros k' e' H. rewrite nth_error_upd in H.
        destruct ((k =? k') && (k <? length (data m))); [inversion H; subst; auto|eapply wf_nn; eauto].
    + intros r' c' Hc'. unfold look, offset; simpl. fold (offset m r' c').
      destruct (nth_error (idxs m) (offset m r' c')) as [[k'|]|] eqn:Hi'.
      * rewrite nth_error_upd. apply Nat.ltb_lt in Hk. rewrite Hk, andb_true_r.
        destruct (Nat.eqb_spec k k').
        -- subst k'. pose proof (wf_inj _ W _ _ _ Hi Hi') as Ho. unfold offset in Ho.
           apply off_inj in Ho; auto. destruct Ho; subst. rewrite !Nat.eqb_refl. reflexivity.
        -- destruct ((r =? r') && (c =? c')) eqn:Eq; auto.
           apply andb_true_iff in Eq. destruct Eq as [E1 E2].
           apply Nat.eqb_eq in E1. apply Nat.eqb_eq in E2. subst. congruence.
      * destruct ((r =? r') && (c =? c')) eqn:Eq; auto.
        apply andb_true_iff in Eq. destruct Eq as [E1 E2].
        apply Nat.eqb_eq in E1. apply Nat.eqb_eq in E2. subst. congruence.
      * destruct ((r =? r') && (c =? c')) eqn:Eq; auto.
        apply andb_true_iff in Eq. destruct Eq as [E1 E2].
        apply Nat.eqb_eq in E1. apply Nat.eqb_eq in E2. subst. congruence.
  - rewrite vset_ok by auto. simpl. eexists; split; [reflexivity|].
    assert (Hfresh : forall o, nth_error (idxs m) o <> Some (Some (length (data m)))).
    { intros o H. apply (wf_bnd _ W) in H. lia. }
    split; [|split;[|split]]; simpl; auto.
    + constructor; simpl.
      * rewrite upd_length. apply (wf_len _ W).
      * intros o k' H. rewrite app_length; simpl. rewrite nth_error_upd in H.
        destruct ((offset m r c =? o) && _).
        -- inversion H; subst. lia.
        -- apply (wf_bnd _ W) in H. lia.
      * intros o1 o2 k' H1 H2. rewrite nth_error_upd in H1, H2.
        apply Nat.ltb_lt in Hlt. rewrite Hlt, andb_true_r in *.
        destruct (Nat.eqb_spec (offset m r c) o1); destruct (Nat.eqb_spec (offset m r c) o2); subst; auto.
        -- inversion H1; subst. exfalso. eapply Hfresh; eauto.
        -- inversion H2; subst. exfalso. eapply Hfresh; eauto.
        -- eapply wf_inj; eauto.
      * intros k' e' H. destruct (Nat.lt_ge_cases k' (length (data m))) as [L|L].
        -- rewrite nth_error_app1 in H by auto. eapply wf_nn; eauto.
        -- rewrite nth_error_app2 in H by auto.
           destruct (k' - length (data m)) as [|q]; simpl in H.
           ++ inversion H; subst; auto.
           ++ destruct q; discriminate.
    + intros r' c' Hc'. unfold look, offset; simpl. fold (offset m r' c') (offset m r c).
      rewrite nth_error_upd. pose proof Hlt as Hlt'. apply Nat.ltb_lt in Hlt. rewrite Hlt, andb_true_r.
      unfold offset at 1 2. rewrite offset_eqb by auto.
      destruct ((r =? r') && (c =? c')) eqn:Eq.
      * rewrite nth_error_app2 by lia. rewrite Nat.sub_diag. reflexivity.
      * destruct (nth_error (idxs m) (offset m r' c')) as [[k'|]|] eqn:Hi'; auto.
        rewrite nth_error_app1; auto. eapply wf_bnd; eauto.
Qed.

(** Building a list with [push_back]. *)
Lemma for_loop_build : forall A (f : nat -> res A) (g : nat -> A) n s acc,
  (forall i, s <= i < s + n -> f i = Ok (g i)) ->
  for_loop s n (fun y acc => let! e := f y in Ok (acc ++ [e])) acc = Ok (acc ++ map g (seq s n)).
Proof.
  intros A f g. induction n; intros s acc H; simpl.
  - rewrite app_nil_r. reflexivity.
  - rewrite H by lia. simpl. rewrite IHn.
    + rewrite <- app_assoc. reflexivity.
    + intros. apply H. lia.
Qed.

Lemma get_row_spec : forall dbg m r, wf m -> r < rows m ->
  get_row nullE dbg m r = Ok (map (fun y => oget (look m r y)) (seq 0 (cols m))).
Proof.
  intros. unfold get_row, assert_. apply Nat.ltb_lt in H0 as H0'. rewrite H0'.
  replace (if dbg then Ok tt else Ok tt) with (@Ok unit tt) by (destruct dbg; auto). simpl.
  rewrite for_loop_build with (g := fun y => oget (look m r y)); auto.
  intros. apply get_look; auto; lia.
Qed.

Lemma get_col_spec : forall dbg m c, wf m -> c < cols m ->
  get_col nullE dbg m c = Ok (map (fun x => oget (look m x c)) (seq 0 (rows m))).
Proof.
  intros. unfold get_col, assert_. apply Nat.ltb_lt in H0 as H0'. rewrite H0'.
  replace (if dbg then Ok tt else Ok tt) with (@Ok unit tt) by (destruct dbg; auto). simpl.
  rewrite for_loop_build with (g := fun y => oget (look m y c)); auto.
  intros. apply get_look; auto; lia.
Qed.

Lemma nth_error_firstn : forall A n (l : list A) i,
  nth_error (firstn n l) i = if i <? n then nth_error l i else None.
Proof.
  induction n; intros l i; simpl.
  - destruct i; reflexivity.
  - destruct l; destruct i; simpl; auto.
    + destruct (S i <? S n); reflexivity.
    + rewrite IHn. reflexivity.
Qed.

Lemma nth_error_skipn : forall A n (l : list A) i, nth_error (skipn n l) i = nth_error l (n + i).
Proof. induction n; intros l i; simpl; auto. destruct l; auto. destruct i; auto. Qed.

(** A generic way to move index slots: a new matrix whose slot [o'] is the old slot [f o']. *)
Lemma wf_remap : forall m nr nc ix (f : nat -> nat), wf m ->
  length ix = nr * nc ->
  (forall o, o < nr * nc -> nth_error ix o = nth_error (idxs m) (f o)) ->
  (forall o1 o2, o1 < nr * nc -> o2 < nr * nc -> f o1 = f o2 -> o1 = o2) ->
  wf (mkMat nr nc (data m) ix).
Proof.
  intros m nr nc ix f W Hl Hf Hinj. constructor; simpl; auto.
  - intros o k H. assert (o < length ix) by (apply nth_error_Some; congruence).
    rewrite Hf in H by lia. eapply wf_bnd; eauto.
  - intros o1 o2 k H1 H2.
    assert (o1 < length ix) by (apply nth_error_Some; congruence).
    assert (o2 < length ix) by (apply nth_error_Some; congruence).
    rewrite Hf in H1 by lia. rewrite Hf in H2 by lia.
    apply Hinj; try lia. eapply wf_inj; eauto.
  - apply (wf_nn _ W).
Qed.

Definition skip (k y : nat) : nat := if y <? k then y else S y.

Lemma skip_inj : forall k a b, skip k a = skip k b -> a = b.
Proof.
  unfold skip. intros. destruct (Nat.ltb_spec a k); destruct (Nat.ltb_spec b k); lia.
Qed.

Lemma skip_lt : forall k y n, y < n -> skip k y < S n.
Proof. unfold skip. intros k y n H. destruct (y <? k); lia. Qed.

Lemma remove_row_spec : forall dbg m r, wf m -> r < rows m -> 2 <= rows m ->
  exists m', remove_row dbg m r = Ok m' /\ wf m' /\ rows m' = rows m - 1 /\ cols m' = cols m /\
    forall r' c', r' < rows m' -> c' < cols m' -> look m' r' c' = look m (skip r r') c'.
Proof.
  intros dbg m r W Hr H2. unfold remove_row, assert_.
  apply Nat.ltb_lt in Hr as Hr'. rewrite Hr'.
  replace (if dbg then Ok tt else Ok tt) with (@Ok unit tt) by (destruct dbg; auto). simpl.
  destruct (Nat.eqb_spec (rows m) 1); try lia.
  assert (Hlen := wf_len _ W).
  unfold offset at 1.
  replace (S r * cols m + 0 <=? length (idxs m)) with true
    by (symmetry; apply Nat.leb_le; rewrite Hlen; simpl; nia).
  destruct (Nat.eqb_spec (rows m) 0); try lia.
  eexists; split; [reflexivity|].
  set (ix := firstn (offset m r 0) (idxs m) ++ skipn (offset m (S r) 0) (idxs m)).
  assert (Hlix : length ix = (rows m - 1) * cols m).
  { unfold ix. rewrite app_length, firstn_length, skipn_length, Hlen. unfold offset. simpl. nia. }
  assert (Hix : forall o, o < (rows m - 1) * cols m ->
     nth_error ix o = nth_error (idxs m) (if o <? offset m r 0 then o else o + cols m)).
  { intros o Ho. unfold ix. destruct (Nat.ltb_spec o (offset m r 0)) as [L|L].
    - rewrite nth_error_app1.
      + rewrite nth_error_firstn. apply Nat.ltb_lt in L. rewrite L. reflexivity.
      + rewrite firstn_length, Hlen. unfold offset in *. nia.
    - rewrite nth_error_app2.
      + rewrite nth_error_skipn, firstn_length, Hlen. f_equal. unfold offset in *. nia.
      + rewrite firstn_length. lia. }
  split; [|split; [|split]]; simpl; auto.
  - apply wf_remap with (f := fun o => if o <? offset m r 0 then o else o + cols m); auto.
    intros o1 o2 _ _ H. unfold offset in H.
    destruct (Nat.ltb_spec o1 (r * cols m + 0)); destruct (Nat.ltb_spec o2 (r * cols m + 0)); lia.
  - intros r' c' Hr'' Hc'. unfold look; simpl. unfold offset at 1; simpl.
    rewrite Hix by (apply off_lt; auto).
    replace (if r' * cols m + c' <? offset m r 0 then r' * cols m + c' else r' * cols m + c' + cols m)
      with (offset m (skip r r') c'); auto.
    unfold offset, skip. destruct (Nat.ltb_spec r' r).
    + destruct (Nat.ltb_spec (r' * cols m + c') (r * cols m + 0)); auto. nia.
    + destruct (Nat.ltb_spec (r' * cols m + c') (r * cols m + 0)); [nia|]. simpl. lia.
Qed.

Lemma shift_piece_spec : forall A n s d (v : list A), 1 <= d -> s + n + d <= length v \/ n = 0 ->
  exists v', shift_piece s d n v = Ok v' /\ length v' = length v /\
    forall p, nth_error v' p = if (s <=? p) && (p <? s + n) then nth_error v (p + d) else nth_error v p.
Proof.
  intros A n s d v Hd Hlen. unfold shift_piece.
  destruct (for_loop_inv (list A)
    (fun i v' => length v' = length v /\
       forall p, nth_error v' p = if (s <=? p) && (p <? s + i) then nth_error v (p + d) else nth_error v p)
    (fun i v' => let! a := vget v' (s + i + d) in vset v' (s + i) a) n 0 v) as [v' [Hv [Hl Hp]]].
  - split; auto. intro p. destruct (Nat.leb_spec s p); destruct (Nat.ltb_spec p (s+0)); simpl; auto; lia.
  - intros i x Hi [Hl Hp]. assert (Hb: s + n + d <= length v) by lia.
    destruct (vget_ok _ x (s + i + d)) as [a [Ha Hna]]; [lia|].
    rewrite Ha. simpl. rewrite vset_ok by lia. eexists; split; [reflexivity|].
    rewrite upd_length. split; auto. intro p. rewrite nth_error_upd.
    rewrite Hp in Hna.
    destruct (Nat.leb_spec s (s+i+d)) as [_|]; [|lia].
    destruct (Nat.ltb_spec (s+i+d) (s+i)); [lia|]. simpl in Hna.
    assert (s + i <? length x = true) as -> by (apply Nat.ltb_lt; lia). rewrite andb_true_r.
    destruct (Nat.eqb_spec (s+i) p).
    + subst p. destruct (Nat.leb_spec s (s+i)); [|lia].
      destruct (Nat.ltb_spec (s+i) (s+S i)); [|lia]. simpl. symmetry. auto.
    + rewrite Hp. destruct (Nat.leb_spec s p); simpl; auto.
      destruct (Nat.ltb_spec p (s+i)); destruct (Nat.ltb_spec p (s + S i)); auto; lia.
  - exists v'. auto.
Qed.

Lemma remove_col_spec : forall dbg m c, wf m -> c < cols m -> 2 <= cols m -> 1 <= rows m ->
  exists m', remove_col dbg m c = Ok m' /\ wf m' /\ rows m' = rows m /\ cols m' = cols m - 1 /\
    forall r' c', r' < rows m' -> c' < cols m' -> look m' r' c' = look m r' (skip c c').
Proof.
  intros dbg m c W Hc H2 H1. unfold remove_col, assert_.
  apply Nat.ltb_lt in Hc as Hc'. rewrite Hc'.
  replace (if dbg then Ok tt else Ok tt) with (@Ok unit tt) by (destruct dbg; auto). simpl.
  destruct (Nat.eqb_spec (cols m) 1); try lia.
  destruct (Nat.eqb_spec (rows m) 0); try lia.
  destruct (Nat.eqb_spec (cols m) 0); try lia. simpl.
  assert (Hlen := wf_len _ W).
  remember (cols m - 1) as nc. assert (Hnc : cols m = S nc) by lia.
  assert (1 <= nc) by lia.
  set (v := idxs m) in *. rewrite Hnc in Hlen.
  destruct (for_loop_inv (list (option nat))
    (fun x v' => length v' = length v /\ forall p, nth_error v' p =
        if (c <=? p) && (p <? x * nc + c) then nth_error v (p + (p - c) / nc + 1) else nth_error v p)
    (fun x v => shift_piece (x * nc + c) (x + 1) nc v) (rows m - 1) 0 v) as [v1 [Hv1 [Hl1 Hp1]]].
  { split; auto. intro p. destruct (Nat.leb_spec c p); destruct (Nat.ltb_spec p (0*nc+c)); simpl; auto; lia. }
  { intros x v' Hx [Hl Hp].
    destruct (shift_piece_spec _ nc (x * nc + c) (x + 1) v') as [v2 [Hv2 [Hl2 Hp2]]]; [lia|left; nia|].
    exists v2. split; auto. split; [lia|]. intro p. rewrite Hp2.
    destruct (Nat.leb_spec (x * nc + c) p) as [L|L].
    - destruct (Nat.ltb_spec p (x * nc + c + nc)) as [L'|L']; simpl.
      + rewrite Hp. destruct (Nat.leb_spec c (p + (x+1))); [|lia].
        destruct (Nat.ltb_spec (p + (x+1)) (x*nc+c)); [lia|]. simpl.
        destruct (Nat.leb_spec c p); [|lia].
        destruct (Nat.ltb_spec p (nc + x * nc + c)); [|lia]. simpl.
        f_equal. replace ((p - c) / nc) with x; [lia|].
        apply (Nat.div_unique _ _ _ (p - c - x * nc)); nia.
      + rewrite Hp. destruct (Nat.leb_spec c p); [|lia].
        destruct (Nat.ltb_spec p (x*nc+c)); [lia|].
        destruct (Nat.ltb_spec p (nc + x * nc + c)); [lia|]. reflexivity.
    - simpl. rewrite Hp. destruct (Nat.leb_spec c p); simpl; auto.
      destruct (Nat.ltb_spec p (x*nc+c)); [|lia].
      destruct (Nat.ltb_spec p (nc + x * nc + c)); [|lia]. reflexivity. }
  rewrite Hv1. simpl. simpl in Hp1.
  set (R := rows m) in *.
  destruct (Nat.ltb_spec (nc * R) ((R - 1) * nc + c)); [nia|].
  destruct (shift_piece_spec _ (nc * R - ((R-1) * nc + c)) ((R-1) * nc + c) (R - 1 + 1) v1)
    as [v2 [Hv2 [Hl2 Hp2]]]; [lia|left; nia|].
  rewrite Hv2. simpl.
  destruct (Nat.leb_spec (nc * R) (length v2)); [|nia].
  eexists; split; [reflexivity|].
  assert (Hall : forall p, p < nc * R -> nth_error v2 p =
     nth_error v (if c <=? p then p + (p - c) / nc + 1 else p)).
  { intros p Hpl. rewrite Hp2.
    destruct (Nat.leb_spec ((R-1) * nc + c) p) as [L|L]; simpl.
    - destruct (Nat.ltb_spec p ((R-1) * nc + c + (nc * R - ((R-1) * nc + c)))); [|lia].
      rewrite Hp1. destruct (Nat.ltb_spec (p + (R - 1 + 1)) ((R-1)*nc+c)); [lia|].
      rewrite andb_false_r. destruct (Nat.leb_spec c p); [|lia]. f_equal.
      replace ((p - c) / nc) with (R - 1); [lia|].
      apply (Nat.div_unique _ _ _ (p - c - (R-1) * nc)); nia.
    - rewrite Hp1. destruct (Nat.ltb_spec p ((R-1)*nc+c)); [|lia].
      rewrite andb_true_r. destruct (c <=? p); auto. }
  assert (Hpos : forall r y, r < R -> y < nc ->
     (if c <=? r * nc + y then r * nc + y + (r * nc + y - c) / nc + 1 else r * nc + y) =
     r * S nc + skip c y).
  { intros r y Hr Hy. unfold skip. destruct (Nat.leb_spec c (r * nc + y)).
    - destruct (Nat.ltb_spec y c).
      + destruct r; [lia|].
        replace ((S r * nc + y - c) / nc) with r; [lia|].
        apply (Nat.div_unique _ _ _ (nc + y - c)); nia.
      + replace ((r * nc + y - c) / nc) with r; [lia|].
        apply (Nat.div_unique _ _ _ (y - c)); nia.
    - destruct r; [|nia]. destruct (Nat.ltb_spec y c); lia. }
  split; [|split; [|split]]; simpl; auto.
  - apply wf_remap with (f := fun o => if c <=? o then o + (o - c) / nc + 1 else o); auto.
    + rewrite firstn_length. rewrite Nat.min_l by lia. lia.
    + intros o Ho. rewrite nth_error_firstn.
      destruct (Nat.ltb_spec o (nc * R)); [|lia]. apply Hall. lia.
    + intros o1 o2 Ho1 Ho2 Heq.
      destruct (off_ex _ _ _ Ho1) as [r1 [y1 [Hr1 [Hy1 ->]]]].
      destruct (off_ex _ _ _ Ho2) as [r2 [y2 [Hr2 [Hy2 ->]]]].
      rewrite !Hpos in Heq by auto.
      apply off_inj in Heq; try (apply skip_lt; assumption).
      destruct Heq as [-> Hs]. apply skip_inj in Hs. subst. reflexivity.
  - intros r' c' Hr'' Hc''. unfold look; simpl. unfold offset at 1; simpl.
    rewrite nth_error_firstn.
    destruct (Nat.ltb_spec (r' * nc + c') (nc * R)); [|pose proof (off_lt _ _ _ _ Hr'' Hc''); lia].
    rewrite Hall by auto. rewrite Hpos by auto. unfold offset. rewrite Hnc. reflexivity.
Qed.

(** Nested loop filling [new_indexes]. *)
Definition is_perm (n : nat) (p : list nat) : Prop :=
  length p = n /\ NoDup p /\ (forall x, In x p -> x < n).

Lemma is_perm_nth : forall n p i, is_perm n p -> i < n -> exists t, nth_error p i = Some t /\ t < n.
Proof.
  intros n p i [Hl [Hn Hb]] Hi. destruct (nth_error p i) eqn:E0.
  - exists n0. split; auto. apply Hb. eapply nth_error_In; eauto.
  - apply nth_error_None in E0. lia.
Qed.

Lemma is_perm_inj : forall n p i j t, is_perm n p ->
  nth_error p i = Some t -> nth_error p j = Some t -> i = j.
Proof.
  intros n p i j t [Hl [Hn Hb]] Hi Hj.
  eapply NoDup_nth_error; eauto; [|congruence]. apply nth_error_Some. congruence.
Qed.

Definition pget (p : list nat) (i : nat) : nat := nth i p 0.

Lemma pget_nth : forall p i t, nth_error p i = Some t -> pget p i = t.
Proof. intros. unfold pget. eapply nth_error_nth in H. eauto. Qed.

Lemma transpose_rows_spec : forall dbg m p, wf m -> is_perm (rows m) p ->
  exists m', transpose_rows dbg m p = Ok m' /\ wf m' /\ rows m' = rows m /\ cols m' = cols m /\
    forall r' c', r' < rows m -> c' < cols m -> look m' r' c' = look m (pget p r') c'.
Proof.
  intros dbg m p W HP. unfold transpose_rows, assert_.
  assert (Hl := proj1 HP). apply Nat.eqb_eq in Hl as Hl'. rewrite Hl'.
  replace (if dbg then Ok tt else Ok tt) with (@Ok unit tt) by (destruct dbg; auto). simpl.
  assert (Hlen := wf_len _ W).
  set (C := cols m) in *. set (R := rows m) in *.
  destruct (for_loop_inv (list (option nat))
    (fun i v => length v = R * C /\ forall r y, r < i -> y < C ->
        nth_error v (r * C + y) = nth_error (idxs m) (pget p r * C + y))
    (fun i v => let! t := vget p i in
       for_loop 0 C (fun y v' => let! a := vget (idxs m) (offset m t y) in vset v' (offset m i y) a) v)
    R 0 (repeat (Some 0) (length (idxs m)))) as [v [Hv [Hlv Hp]]].
  - split; [rewrite repeat_length; auto|intros; lia].
  - intros i x Hi [Hlx Hx].
    destruct (is_perm_nth R p i HP) as [t [Ht Htb]]; [lia|].
    unfold vget at 1. rewrite Ht. simpl.
    destruct (for_loop_inv (list (option nat))
      (fun j v => length v = R * C /\
        (forall r y, r < i -> y < C -> nth_error v (r * C + y) = nth_error (idxs m) (pget p r * C + y)) /\
        (forall y, y < j -> nth_error v (i * C + y) = nth_error (idxs m) (t * C + y)))
      (fun y v' => let! a := vget (idxs m) (offset m t y) in vset v' (offset m i y) a) C 0 x)
      as [v [Hv [Hlv [Hp1 Hp2]]]].
    + split; auto. split; auto. intros; lia.
    + intros j w Hj [Hlw [Hw1 Hw2]].
      destruct (vget_ok _ (idxs m) (offset m t j)) as [a [Ha Hna]].
      { unfold offset. fold C. rewrite Hlen. apply off_lt; lia. }
      rewrite Ha. simpl. rewrite vset_ok.
      2:{ unfold offset. fold C. rewrite Hlw. apply off_lt; lia. }
      eexists; split; [reflexivity|]. rewrite upd_length. split; auto.
      unfold offset in *. fold C in Hna |- *. split.
      * intros r y Hr Hy. rewrite nth_error_upd_other; auto.
        intro Heq. apply off_inj in Heq; lia.
      * intros y Hy. destruct (Nat.eq_dec y j).
        -- subst. rewrite nth_error_upd_same; auto. rewrite Hlw. apply off_lt; lia.
        -- rewrite nth_error_upd_other by lia. apply Hw2. lia.
    + exists v. split; auto. split; auto. intros r y Hr Hy.
      destruct (Nat.eq_dec r i).
      * subst. rewrite (pget_nth _ _ _ Ht). apply Hp2. lia.
      * apply Hp1; lia.
  - rewrite Hv. simpl. eexists; split; [reflexivity|]. simpl in Hp.
    split; [|split; [|split]]; simpl; auto.
    + apply wf_remap with (f := fun o => pget p (o / C) * C + o mod C); auto.
      * intros o Ho. destruct (off_ex _ _ _ Ho) as [r [y [Hr [Hy ->]]]].
        rewrite Hp by auto. f_equal.
        rewrite Nat.div_add_l by lia. rewrite Nat.div_small by auto.
        rewrite (Nat.add_comm (r * C) y). rewrite Nat.mod_add by lia. rewrite Nat.mod_small by auto. rewrite Nat.add_0_r. reflexivity.
      * intros o1 o2 Ho1 Ho2 Heq.
        destruct (off_ex _ _ _ Ho1) as [r1 [y1 [Hr1 [Hy1 ->]]]].
        destruct (off_ex _ _ _ Ho2) as [r2 [y2 [Hr2 [Hy2 ->]]]].
        rewrite !Nat.div_add_l in Heq by lia. rewrite !Nat.div_small in Heq by auto.
        rewrite (Nat.add_comm (r1 * C)), (Nat.add_comm (r2 * C)) in Heq.
        rewrite !Nat.mod_add in Heq by lia. rewrite !Nat.mod_small in Heq by auto.
        rewrite !Nat.add_0_r in Heq.
        apply off_inj in Heq; auto. destruct Heq as [Hq ->].
        destruct (is_perm_nth R p r1 HP Hr1) as [t1 [Ht1 _]].
        destruct (is_perm_nth R p r2 HP Hr2) as [t2 [Ht2 _]].
        rewrite (pget_nth _ _ _ Ht1), (pget_nth _ _ _ Ht2) in Hq. subst.
        rewrite (is_perm_inj _ _ _ _ _ HP Ht1 Ht2). reflexivity.
    + intros r' c' Hr' Hc'. unfold look, offset; simpl. fold C. rewrite Hp by auto. reflexivity.
Qed.

Lemma transpose_cols_spec : forall dbg m p, wf m -> is_perm (cols m) p ->
  exists m', transpose_cols dbg m p = Ok m' /\ wf m' /\ rows m' = rows m /\ cols m' = cols m /\
    forall r' c', r' < rows m -> c' < cols m -> look m' r' c' = look m r' (pget p c').
Proof.
  intros dbg m p W HP. unfold transpose_cols, assert_.
  assert (Hl := proj1 HP). apply Nat.eqb_eq in Hl as Hl'. rewrite Hl'.
  replace (if dbg then Ok tt else Ok tt) with (@Ok unit tt) by (destruct dbg; auto). simpl.
  assert (Hlen := wf_len _ W).
  set (C := cols m) in *. set (R := rows m) in *.
  destruct (for_loop_inv (list (option nat))
    (fun i v => length v = R * C /\ forall x y, x < R -> y < i -> i <= C ->
        nth_error v (x * C + y) = nth_error (idxs m) (x * C + pget p y))
    (fun i v => let! t := vget p i in
       for_loop 0 R (fun x v' => let! a := vget (idxs m) (offset m x t) in vset v' (offset m x i) a) v)
    C 0 (repeat (Some 0) (length (idxs m)))) as [v [Hv [Hlv Hp]]].
  - split; [rewrite repeat_length; auto|intros; lia].
  - intros i x Hi [Hlx Hx].
    destruct (is_perm_nth C p i HP) as [t [Ht Htb]]; [lia|].
    unfold vget at 1. rewrite Ht. simpl.
    destruct (for_loop_inv (list (option nat))
      (fun j v => length v = R * C /\
        (forall x y, x < R -> y < i -> nth_error v (x * C + y) = nth_error (idxs m) (x * C + pget p y)) /\
        (forall x, x < j -> j <= R -> nth_error v (x * C + i) = nth_error (idxs m) (x * C + t)))
      (fun x v' => let! a := vget (idxs m) (offset m x t) in vset v' (offset m x i) a) R 0 x)
      as [v [Hv [Hlv [Hp1 Hp2]]]].
    + split; auto. split; [|intros; lia]. intros. apply Hx; lia.
    + intros j w Hj [Hlw [Hw1 Hw2]].
      destruct (vget_ok _ (idxs m) (offset m j t)) as [a [Ha Hna]].
      { unfold offset. fold C. rewrite Hlen. apply off_lt; lia. }
      rewrite Ha. simpl. rewrite vset_ok.
      2:{ unfold offset. fold C. rewrite Hlw. apply off_lt; lia. }
      eexists; split; [reflexivity|]. rewrite upd_length. split; auto.
      unfold offset in *. fold C in Hna |- *. split.
      * intros x' y Hr Hy. rewrite nth_error_upd_other; auto.
        intro Heq. apply off_inj in Heq; lia.
      * intros x' Hy Hj'. destruct (Nat.eq_dec x' j).
        -- subst. rewrite nth_error_upd_same; auto. rewrite Hlw. apply off_lt; lia.
        -- rewrite nth_error_upd_other; [apply Hw2; lia|]. intro Heq. apply off_inj in Heq; lia.
    + exists v. split; auto. split; auto. intros x' y Hr Hy _.
      destruct (Nat.eq_dec y i).
      * subst. rewrite (pget_nth _ _ _ Ht). apply Hp2; lia.
      * apply Hp1; lia.
  - rewrite Hv. simpl. eexists; split; [reflexivity|]. simpl in Hp.
    split; [|split; [|split]]; simpl; auto.
    + apply wf_remap with (f := fun o => (o / C) * C + pget p (o mod C)); auto.
      * intros o Ho. destruct (off_ex _ _ _ Ho) as [r [y [Hr [Hy ->]]]].
        rewrite Hp by auto. f_equal.
        rewrite Nat.div_add_l by lia. rewrite Nat.div_small by auto.
        rewrite (Nat.add_comm (r * C) y). rewrite Nat.mod_add by lia. rewrite Nat.mod_small by auto. lia.
      * intros o1 o2 Ho1 Ho2 Heq.
        destruct (off_ex _ _ _ Ho1) as [r1 [y1 [Hr1 [Hy1 ->]]]].
        destruct (off_ex _ _ _ Ho2) as [r2 [y2 [Hr2 [Hy2 ->]]]].
        rewrite !Nat.div_add_l in Heq by lia. rewrite !Nat.div_small in Heq by auto.
        rewrite (Nat.add_comm (r1 * C) y1), (Nat.add_comm (r2 * C) y2) in Heq.
        rewrite !Nat.mod_add in Heq by lia. rewrite !Nat.mod_small in Heq by auto.
        rewrite !Nat.add_0_r in Heq.
        destruct (is_perm_nth C p y1 HP Hy1) as [t1 [Ht1 Hb1]].
        destruct (is_perm_nth C p y2 HP Hy2) as [t2 [Ht2 Hb2]].
        rewrite (pget_nth _ _ _ Ht1), (pget_nth _ _ _ Ht2) in Heq.
        apply off_inj in Heq; auto. destruct Heq as [-> ->].
        rewrite (is_perm_inj _ _ _ _ _ HP Ht1 Ht2). reflexivity.
    + intros r' c' Hr' Hc'. unfold look, offset; simpl. fold C. rewrite Hp by auto. reflexivity.
Qed.

(** [std::swap] of two different slots *)
Lemma vswap_spec : forall A (v : list A) i j, i < length v -> j < length v -> i <> j ->
  exists v', vswap v i j = Ok v' /\ length v' = length v /\
    forall p, nth_error v' p = if p =? i then nth_error v j else if p =? j then nth_error v i else nth_error v p.
Proof.
  intros A v i j Hi Hj Hij. unfold vswap.
  destruct (vget_ok _ v i Hi) as [a [Ha Hna]]. destruct (vget_ok _ v j Hj) as [b [Hb Hnb]].
  rewrite Ha, Hb. simpl. rewrite vset_ok by auto. simpl. rewrite vset_ok by (rewrite upd_length; auto).
  eexists; split; [reflexivity|]. rewrite !upd_length. split; auto.
  intro p. rewrite nth_error_upd, upd_length.
  assert (j <? length v = true) as -> by (apply Nat.ltb_lt; auto). rewrite andb_true_r.
  rewrite nth_error_upd. assert (i <? length v = true) as -> by (apply Nat.ltb_lt; auto). rewrite andb_true_r.
  rewrite (Nat.eqb_sym p i), (Nat.eqb_sym p j).
  destruct (Nat.eqb_spec i p); destruct (Nat.eqb_spec j p); subst; auto; congruence.
Qed.

Definition swp (a b x : nat) : nat := if x =? a then b else if x =? b then a else x.

Lemma swp_inj : forall a b x y, swp a b x = swp a b y -> x = y.
Proof.
  unfold swp. intros a b x y.
  destruct (Nat.eqb_spec x a); destruct (Nat.eqb_spec y a); destruct (Nat.eqb_spec x b); destruct (Nat.eqb_spec y b); lia.
Qed.

Lemma swap_rows_spec : forall dbg m r1 r2, wf m -> r1 < rows m -> r2 < rows m ->
  exists m', swap_rows dbg m r1 r2 = Ok m' /\ wf m' /\ rows m' = rows m /\ cols m' = cols m /\
    forall r' c', r' < rows m -> c' < cols m -> look m' r' c' = look m (swp r1 r2 r') c'.
Proof.
  intros dbg m r1 r2 W H1 H2. unfold swap_rows, assert_.
  apply Nat.ltb_lt in H1 as H1'. apply Nat.ltb_lt in H2 as H2'. rewrite H1', H2'. simpl.
  replace (if dbg then Ok tt else Ok tt) with (@Ok unit tt) by (destruct dbg; auto). simpl.
  destruct (Nat.eqb_spec r1 r2).
  { subst. exists m. repeat split; try apply W; auto. intros. unfold swp.
    destruct (Nat.eqb_spec r' r2); subst; auto. }
  assert (Hlen := wf_len _ W).
  set (C := cols m) in *. set (R := rows m) in *.
  destruct (for_loop_inv (list (option nat))
    (fun i v => length v = R * C /\ forall r y, y < C -> i <= C ->
        nth_error v (r * C + y) = nth_error (idxs m) ((if y <? i then swp r1 r2 r else r) * C + y))
    (fun y v => vswap v (offset m r1 y) (offset m r2 y)) C 0 (idxs m)) as [v [Hv [Hlv Hp]]].
  - split; auto.
  - intros i v Hi [Hl Hp]. unfold offset. fold C.
    destruct (vswap_spec _ v (r1 * C + i) (r2 * C + i)) as [v' [Hv' [Hl' Hp']]].
    { rewrite Hl. apply off_lt; lia. } { rewrite Hl. apply off_lt; lia. }
    { intro Heq. apply off_inj in Heq; lia. }
    exists v'. split; auto. split; [lia|]. intros r y Hy _. rewrite Hp'.
    rewrite !offset_eqb by lia. unfold swp.
    destruct (Nat.eqb_spec y i).
    + subst y. rewrite !andb_true_r. rewrite !Hp by lia.
      destruct (Nat.ltb_spec i i); [lia|]. destruct (Nat.ltb_spec i (S i)); [|lia].
      destruct (Nat.eqb_spec r r1); auto. destruct (Nat.eqb_spec r r2); auto.
    + rewrite !andb_false_r. rewrite Hp by lia. unfold swp.
      destruct (Nat.ltb_spec y i); destruct (Nat.ltb_spec y (S i)); auto; lia.
  - rewrite Hv. simpl. eexists; split; [reflexivity|]. simpl in Hp.
    assert (Hp2 : forall r y, y < C -> nth_error v (r * C + y) = nth_error (idxs m) (swp r1 r2 r * C + y)).
    { intros. rewrite Hp by lia. apply Nat.ltb_lt in H. rewrite H. reflexivity. }
    split; [|split; [|split]]; simpl; auto.
    + apply wf_remap with (f := fun o => swp r1 r2 (o / C) * C + o mod C); auto.
      * intros o Ho. destruct (off_ex _ _ _ Ho) as [r [y [Hr [Hy ->]]]].
        rewrite Hp2 by auto. f_equal.
        rewrite Nat.div_add_l by lia. rewrite Nat.div_small by auto.
        rewrite (Nat.add_comm (r * C) y). rewrite Nat.mod_add by lia. rewrite Nat.mod_small by auto.
        rewrite Nat.add_0_r. reflexivity.
      * intros o1 o2 Ho1 Ho2 Heq.
        destruct (off_ex _ _ _ Ho1) as [q1 [y1 [Hr1 [Hy1 ->]]]].
        destruct (off_ex _ _ _ Ho2) as [q2 [y2 [Hr2 [Hy2 ->]]]].
        rewrite !Nat.div_add_l in Heq by lia. rewrite !Nat.div_small in Heq by auto.
        rewrite (Nat.add_comm (q1 * C) y1), (Nat.add_comm (q2 * C) y2) in Heq.
        rewrite !Nat.mod_add in Heq by lia. rewrite !Nat.mod_small in Heq by auto.
        rewrite !Nat.add_0_r in Heq. apply off_inj in Heq; auto. destruct Heq as [Hs ->].
        apply swp_inj in Hs. subst. reflexivity.
    + intros r' c' Hr' Hc'. unfold look, offset; simpl. fold C. rewrite Hp2 by auto. reflexivity.
Qed.

Lemma swap_cols_spec : forall dbg m c1 c2, wf m -> c1 < cols m -> c2 < cols m ->
  exists m', swap_cols dbg m c1 c2 = Ok m' /\ wf m' /\ rows m' = rows m /\ cols m' = cols m /\
    forall r' c', r' < rows m -> c' < cols m -> look m' r' c' = look m r' (swp c1 c2 c').
Proof.
  intros dbg m c1 c2 W H1 H2. unfold swap_cols, assert_.
  apply Nat.ltb_lt in H1 as H1'. apply Nat.ltb_lt in H2 as H2'. rewrite H1', H2'. simpl.
  replace (if dbg then Ok tt else Ok tt) with (@Ok unit tt) by (destruct dbg; auto). simpl.
  destruct (Nat.eqb_spec c1 c2).
  { subst. exists m. repeat split; try apply W; auto. intros. unfold swp.
    destruct (Nat.eqb_spec c' c2); subst; auto. }
  assert (Hlen := wf_len _ W).
  set (C := cols m) in *. set (R := rows m) in *.
  assert (Hsb : forall y, y < C -> swp c1 c2 y < C).
  { intros. unfold swp. destruct (y =? c1); auto. destruct (y =? c2); auto. }
  destruct (for_loop_inv (list (option nat))
    (fun i v => length v = R * C /\ forall r y, y < C -> i <= R ->
        nth_error v (r * C + y) = nth_error (idxs m) (r * C + (if r <? i then swp c1 c2 y else y)))
    (fun x v => vswap v (offset m x c1) (offset m x c2)) R 0 (idxs m)) as [v [Hv [Hlv Hp]]].
  - split; auto.
  - intros i v Hi [Hl Hp]. unfold offset. fold C.
    destruct (vswap_spec _ v (i * C + c1) (i * C + c2)) as [v' [Hv' [Hl' Hp']]].
    { rewrite Hl. apply off_lt; lia. } { rewrite Hl. apply off_lt; lia. } { lia. }
    exists v'. split; auto. split; [lia|]. intros r y Hy _. rewrite Hp'.
    rewrite !offset_eqb by lia. unfold swp.
    destruct (Nat.eqb_spec r i).
    + subst r. simpl. rewrite !Hp by lia. destruct (Nat.ltb_spec i i); [lia|].
      destruct (Nat.ltb_spec i (S i)); [|lia].
      destruct (Nat.eqb_spec y c1); auto. destruct (Nat.eqb_spec y c2); auto.
    + simpl. rewrite Hp by lia. unfold swp.
      destruct (Nat.ltb_spec r i); destruct (Nat.ltb_spec r (S i)); auto; lia.
  - rewrite Hv. simpl. eexists; split; [reflexivity|]. simpl in Hp.
    assert (Hp2 : forall r y, r < R -> y < C -> nth_error v (r * C + y) = nth_error (idxs m) (r * C + swp c1 c2 y)).
    { intros. rewrite Hp by lia. apply Nat.ltb_lt in H. rewrite H. reflexivity. }
    split; [|split; [|split]]; simpl; auto.
    + apply wf_remap with (f := fun o => (o / C) * C + swp c1 c2 (o mod C)); auto.
      * intros o Ho. destruct (off_ex _ _ _ Ho) as [r [y [Hr [Hy ->]]]].
        rewrite Hp2 by auto. f_equal.
        rewrite Nat.div_add_l by lia. rewrite Nat.div_small by auto.
        rewrite (Nat.add_comm (r * C) y). rewrite Nat.mod_add by lia. rewrite Nat.mod_small by auto.
        rewrite Nat.add_0_r. reflexivity.
      * intros o1 o2 Ho1 Ho2 Heq.
        destruct (off_ex _ _ _ Ho1) as [q1 [y1 [Hr1 [Hy1 ->]]]].
        destruct (off_ex _ _ _ Ho2) as [q2 [y2 [Hr2 [Hy2 ->]]]].
        rewrite !Nat.div_add_l in Heq by lia. rewrite !Nat.div_small in Heq by auto.
        rewrite (Nat.add_comm (q1 * C) y1), (Nat.add_comm (q2 * C) y2) in Heq.
        rewrite !Nat.mod_add in Heq by lia. rewrite !Nat.mod_small in Heq by auto.
        rewrite !Nat.add_0_r in Heq. apply off_inj in Heq; auto. destruct Heq as [-> Hs].
        apply swp_inj in Hs. subst. reflexivity.
    + intros r' c' Hr' Hc'. unfold look, offset; simpl. fold C. rewrite Hp2 by auto. reflexivity.
Qed.

End Facts.

Arguments look {E}.
Arguments oget {E}.
Arguments wf {E}.
