(** Proofs: sums, products, traces of MPS and FiniteMPO *)
From Coq Require Import List Arith Lia Bool ZArith Ring.
From Verif Require Import Base FiniteMps FmpsSpec FmpsFacts EffHam EffHamSpec EffHamFacts VmpsTen FinMpo FinMpoSpec.
Import ListNotations.

Section Facts.
Variables (R : Type) (r0 r1 : R) (radd rmul rsub : R -> R -> R) (ropp : R -> R).
Variable Rth : ring_theory r0 r1 radd rmul rsub ropp (@eq R).
Add Ring Rfo : Rth.
Infix "+r" := radd (at level 50, left associativity).
Infix "*r" := rmul (at level 40, left associativity).
Notation sumn := (sumn R r0 radd). Notation lsum := (lsum R r0 radd). Notation ten4 := (ten4 R). Notation ten := (ten R).
Notation delta := (delta R r0 r1).
Notation mps_mat := (mps_mat R r0 r1 radd rmul).
Notation o4_mat := (o4_mat R r0 r1 radd rmul).

Lemma s_ext n f g : (forall i, i < n -> f i = g i) -> sumn n f = sumn n g.
Proof. revert f g. induction n; intros f g H; cbn; auto. rewrite H, (IHn f g); auto. Qed.
Lemma s_mull n c f : c *r sumn n f = sumn n (fun i => c *r f i).
Proof. induction n; cbn; [ring|]. rewrite <- IHn. ring. Qed.
Lemma s_mulr n c f : sumn n f *r c = sumn n (fun i => f i *r c).
Proof. induction n; cbn; [ring|]. rewrite <- IHn. ring. Qed.
Lemma s_add n f g : sumn n (fun i => f i +r g i) = sumn n f +r sumn n g.
Proof. induction n; cbn; [ring|]. rewrite IHn. ring. Qed.
Lemma s_0 n f : (forall i, i < n -> f i = r0) -> sumn n f = r0.
Proof. induction n; intros H; cbn; auto. rewrite H, IHn; auto. ring. Qed.
Lemma s_swap n m (f : nat -> nat -> R) : sumn n (fun i => sumn m (fun j => f i j)) = sumn m (fun j => sumn n (fun i => f i j)).
Proof. induction n; cbn; [symmetry; apply s_0; auto|]. rewrite IHn, s_add. auto. Qed.
Lemma s_split n m f : sumn (n + m) f = sumn n f +r sumn m (fun i => f (n + i)).
Proof. induction m; cbn. - rewrite Nat.add_0_r. ring. - rewrite Nat.add_succ_r. cbn. rewrite IHm. ring. Qed.
Lemma s_one n k f : k < n -> (forall i, i < n -> i <> k -> f i = r0) -> sumn n f = f k.
Proof. intros. apply (sumn_one R r0 r1 radd rmul rsub ropp Rth); auto. Qed.
Lemma s_flat m n (f : nat -> nat -> R) : 0 < n -> sumn (m * n) (fun k => f (k / n) (k mod n)) = sumn m (fun i => sumn n (fun j => f i j)).
Proof.
  intros Hn. induction m; cbn [Nat.mul FmpsSpec.sumn]; auto. rewrite Nat.add_comm, s_split, IHm. f_equal. apply s_ext. intros i Hi. f_equal.
  - rewrite Nat.add_comm, Nat.div_add by lia. rewrite Nat.div_small by auto. auto.
  - rewrite Nat.add_comm, Nat.mod_add by lia. apply Nat.mod_small. auto.
Qed.
(** lists *)
Lemma l_nil {A} (f : A -> R) : lsum [] f = r0.
Proof. auto. Qed.
Lemma l_cons {A} a (l : list A) f : lsum (a :: l) f = f a +r lsum l f.
Proof. auto. Qed.
Lemma l_ext {A} (l : list A) f g : (forall x, In x l -> f x = g x) -> lsum l f = lsum l g.
Proof. induction l as [|a l IH]; intros H; rewrite ?l_nil, ?l_cons; auto. rewrite H by (left; auto). f_equal. apply IH. intros. apply H. right. auto. Qed.
Lemma l_mull {A} (l : list A) c f : c *r lsum l f = lsum l (fun x => c *r f x).
Proof. induction l; rewrite ?l_nil, ?l_cons; [ring|]. rewrite <- IHl. ring. Qed.
Lemma l_mulr {A} (l : list A) c f : lsum l f *r c = lsum l (fun x => f x *r c).
Proof. induction l; rewrite ?l_nil, ?l_cons; [ring|]. rewrite <- IHl. ring. Qed.
Lemma l_add {A} (l : list A) f g : lsum l (fun x => f x +r g x) = lsum l f +r lsum l g.
Proof. induction l; rewrite ?l_nil, ?l_cons; [ring|]. rewrite IHl. ring. Qed.
Lemma l_0 {A} (l : list A) f : (forall x, In x l -> f x = r0) -> lsum l f = r0.
Proof. induction l as [|a l IH]; intros H; rewrite ?l_nil, ?l_cons; auto. rewrite H by (left; auto). rewrite IH; [ring|]. intros. apply H. right. auto. Qed.
Lemma l_app {A} (l l' : list A) f : lsum (l ++ l') f = lsum l f +r lsum l' f.
Proof. induction l; cbn [app]; rewrite ?l_nil, ?l_cons; [ring|]. rewrite IHl. ring. Qed.
Lemma l_map {A B} (l : list B) (h : B -> A) f : lsum (map h l) f = lsum l (fun x => f (h x)).
Proof. induction l; cbn [map]; rewrite ?l_nil, ?l_cons; auto. rewrite IHl. auto. Qed.
Lemma l_flat {A B} (l : list B) (h : B -> list A) f : lsum (flat_map h l) f = lsum l (fun x => lsum (h x) f).
Proof. induction l; cbn [flat_map]; rewrite ?l_nil, ?l_cons; auto. rewrite l_app, IHl. auto. Qed.
Lemma l_sumn {A} (l : list A) n f : lsum l (fun x => sumn n (fun i => f x i)) = sumn n (fun i => lsum l (fun x => f x i)).
Proof. induction l; rewrite ?l_nil, ?l_cons. - symmetry. apply s_0. auto. - rewrite IHl, <- s_add. auto. Qed.
Lemma l_swap {A B} (l : list A) (m : list B) f : lsum l (fun x => lsum m (fun y => f x y)) = lsum m (fun y => lsum l (fun x => f x y)).
Proof. induction l; rewrite ?l_nil, ?l_cons. - symmetry. apply l_0. auto. - rewrite IHl, <- l_add. auto. Qed.
Lemma l_seq n f : lsum (seq 0 n) f = sumn n f.
Proof. induction n; auto. rewrite seq_S, l_app, IHn, l_cons, l_nil. cbn. ring. Qed.
Lemma cfg_cons d ds f : lsum (configs (d :: ds)) f = sumn d (fun s => lsum (configs ds) (fun c => f (s :: c))).
Proof. cbn [configs]. rewrite l_flat, l_seq. apply s_ext. intros. apply l_map. Qed.
Lemma cfg_in ds c : In c (configs ds) <-> Forall2 (fun s d => s < d) c ds.
Proof.
  revert c. induction ds as [|d ds IH]; intros c; cbn [configs].
  - split; [intros [<-|[]]; constructor|intros H; inversion H; left; auto].
  - rewrite in_flat_map. split.
    + intros (s & H1 & H2). apply in_seq in H1. apply in_map_iff in H2. destruct H2 as (c' & <- & H2). constructor; [lia|]. apply IH. auto.
    + intros H. inversion H as [|s d' c' ds' H1 H2]; subst. exists s. split; [apply in_seq; lia|]. apply in_map, IH. auto.
Qed.

(** ** Chains of matrices *)
Record mat : Type := mkMat { cols : nat; mf : nat -> nat -> R }.
Fixpoint mch (l : list mat) (x y : nat) : R := match l with [] => delta x y | m :: l => sumn (cols m) (fun z => mf m x z *r mch l z y) end.
Inductive tail_sum : nat -> list mat -> list mat -> list mat -> Prop :=
| ts_last D a b c : cols c = cols a -> cols b = cols a -> (forall l r, mf c l r = if l <? D then mf a l r else mf b (l - D) r) -> tail_sum D [a] [b] [c]
| ts_mid D a b c A B C : cols c = cols a + cols b ->
    (forall l r, mf c l r = if l <? D then (if r <? cols a then mf a l r else r0) else (if r <? cols a then r0 else mf b (l - D) (r - cols a))) ->
    tail_sum (cols a) A B C -> tail_sum D (a :: A) (b :: B) (c :: C).
Lemma tail_ok D A B C : tail_sum D A B C -> forall x y, mch C x y = if x <? D then mch A x y else mch B (x - D) y.
Proof.
  induction 1 as [D a b c H1 H2 H3|D a b c A B C H1 H2 _ IH]; intros x y; cbn [mch].
  - rewrite H2. rewrite H1. destruct (x <? D) eqn:E; apply s_ext; intros; rewrite H3, E; auto.
  - rewrite H1, s_split. destruct (x <? D) eqn:E.
    + rewrite (s_0 (cols b)). 2:{ intros i Hi. rewrite H2, E. destruct (Nat.ltb_spec (cols a + i) (cols a)); [lia|ring]. }
      transitivity (sumn (cols a) (fun z => mf a x z *r mch A z y) +r r0); [|ring]. f_equal. apply s_ext. intros i Hi. rewrite H2, E, IH. destruct (Nat.ltb_spec i (cols a)); [auto|lia].
    + rewrite (s_0 (cols a)). 2:{ intros i Hi. rewrite H2, E. destruct (Nat.ltb_spec i (cols a)); [ring|lia]. }
      transitivity (r0 +r sumn (cols b) (fun z => mf b (x - D) z *r mch B z y)); [|ring]. f_equal. apply s_ext. intros i Hi. rewrite H2, E, IH. destruct (Nat.ltb_spec (cols a + i) (cols a)); [lia|].
      replace (cols a + i - cols a) with i by lia. auto.
Qed.
Lemma head_ok a b c A B C : cols c = cols a + cols b -> (forall l r, mf c l r = if r <? cols a then mf a l r else mf b l (r - cols a)) -> tail_sum (cols a) A B C ->
  forall x y, mch (c :: C) x y = mch (a :: A) x y +r mch (b :: B) x y.
Proof.
  intros H1 H2 H x y. cbn [mch]. rewrite H1, s_split. f_equal; apply s_ext; intros i Hi; rewrite H2, (tail_ok _ _ _ _ H).
  - destruct (Nat.ltb_spec i (cols a)); [auto|lia].
  - destruct (Nat.ltb_spec (cols a + i) (cols a)); [lia|]. replace (cols a + i - cols a) with i by lia. auto.
Qed.

(** ** Adding chains, any kind of tensors *)
Section Any.
Variable T : Type.
Variables (fh fm fl : T -> T -> T).
Fixpoint add_tail (A B : list T) : list T :=
  match A, B with
  | a :: A', b :: B' => match A', B' with [], [] => [fl a b] | _, _ => fm a b :: add_tail A' B' end
  | _, _ => []
  end.
Definition add_all (A B : list T) : list T := match A, B with a :: A, b :: B => fh a b :: add_tail A B | _, _ => [] end.
Lemma add_tail_len A B : length A = length B -> length (add_tail A B) = length A.
Proof.
  revert B. induction A as [|a A IH]; intros [|b B] H; try discriminate; auto. cbn in H. cbn [add_tail]. destruct A as [|a' A], B as [|b' B]; try discriminate; auto.
  cbn [length]. f_equal. apply (IH (b' :: B)). cbn in *. lia.
Qed.
Lemma add_tail_nth A B i a b : length A = length B -> nth_error A i = Some a -> nth_error B i = Some b ->
  nth_error (add_tail A B) i = Some (if S i =? length A then fl a b else fm a b).
Proof.
  revert B i. induction A as [|x A IH]; intros [|y B] i H HA HB; try discriminate; [destruct i; discriminate|]. cbn in H. cbn [add_tail].
  destruct A as [|x' A], B as [|y' B]; try discriminate.
  - destruct i as [|i]; cbn in HA, HB |- *; [congruence|destruct i; discriminate].
  - destruct i as [|i]; cbn [nth_error] in HA, HB |- *.
    + injection HA as ->. injection HB as ->. auto.
    + rewrite (IH (y' :: B)) by (auto; cbn in *; lia). auto.
Qed.
Lemma add_all_nth A B i a b : length A = length B -> 2 <= length A -> nth_error A i = Some a -> nth_error B i = Some b ->
  nth_error (add_all A B) i = Some (if i =? 0 then fh a b else if i =? length A - 1 then fl a b else fm a b).
Proof.
  intros H HN HA HB. destruct A as [|x A], B as [|y B]; try discriminate; [destruct i; discriminate|]. cbn in H, HN. cbn [add_all]. destruct i as [|i]; cbn [nth_error] in *; [injection HA as ->; injection HB as ->; auto|].
  rewrite (add_tail_nth A B i a b) by (auto; lia). cbn [length Nat.eqb]. replace (S (length A) - 1) with (length A) by lia. auto.
Qed.
Lemma add_all_len A B : length A = length B -> length (add_all A B) = length A.
Proof. destruct A, B; intros H; try discriminate; auto. cbn [add_all length]. f_equal. apply add_tail_len. cbn in H. lia. Qed.
End Any.

(** ** MPS *)
Definition ex_t (x0 x2 : bool) (a b : ten) : ten :=
  mkTen (if x0 then d0 a + d0 b else d0 a) (d1 a) (if x2 then d2 a + d2 b else d2 a) (fun l s r =>
    match x0 && negb (l <? d0 a), x2 && negb (r <? d2 a) with
    | false, false => if x0 || x2 then el a l s r else el a l s r +r el b l s r
    | true, true => el b (l - d0 a) s (r - d2 a)
    | true, false => if x2 then r0 else el b (l - d0 a) s r
    | false, true => if x0 then r0 else el b l s (r - d2 a)
    end).
Definition mps_sum : list ten -> list ten -> list ten := add_all ten (ex_t false true) (ex_t true true) (ex_t true false).
Definition sel (t : ten) (s : nat) : mat := mkMat (d2 t) (fun x z => el t x s z).
Fixpoint sels (ts : list ten) (c : list nat) : list mat := match ts, c with t :: ts, s :: c => sel t s :: sels ts c | _, _ => [] end.
Lemma sels_ok ts c x y : length c = length ts -> mps_mat ts c x y = mch (sels ts c) x y.
Proof. revert c x. induction ts as [|t ts IH]; intros [|s c] x H; try discriminate; cbn [EffHamSpec.mps_mat sels mch]; auto. cbn [cols mf sel]. apply s_ext. intros. rewrite IH; auto. Qed.
Lemma mps_tail A B c D1 D2 : fit R D1 A 1 -> fit R D2 B 1 -> A <> [] -> length A = length B -> length c = length A ->
  tail_sum D1 (sels A c) (sels B c) (sels (add_tail ten (ex_t true true) (ex_t true false) A B) c).
Proof.
  revert B c D1 D2. induction A as [|a A IH]; intros [|b B] [|s c] D1 D2 FA FB NE HL HC; try discriminate; [congruence|]. destruct FA as [FA1 FA2], FB as [FB1 FB2]. cbn in HL, HC. cbn [add_tail].
  destruct A as [|a' A], B as [|b' B]; try discriminate.
  - destruct c; [|discriminate]. cbn in FA2, FB2. cbn [sels]. constructor; cbn [cols sel mf ex_t d2 el]; auto; [lia|]. intros l r. rewrite FA1. cbn [andb orb]. destruct (l <? D1); auto.
  - cbn [sels]. apply ts_mid; cbn [cols sel mf ex_t d2 el]; auto.
    + intros l r. rewrite FA1. cbn [andb orb]. destruct (l <? D1), (r <? d2 a); auto.
    + apply (IH (b' :: B) c _ (d2 b)); auto; try discriminate.
Qed.
Lemma mps_sum_amp A B c x y : fit R 1 A 1 -> fit R 1 B 1 -> 2 <= length A -> length A = length B -> length c = length A ->
  mps_mat (mps_sum A B) c x y = mps_mat A c x y +r mps_mat B c x y.
Proof.
  intros FA FB HN HL HC. rewrite !sels_ok by (rewrite ?add_all_len; lia || (unfold mps_sum; rewrite add_all_len; lia)). destruct A as [|a A], B as [|b B], c as [|s c]; try discriminate; [cbn in HN; lia|].
  destruct FA as [FA1 FA2], FB as [FB1 FB2]. cbn in HN, HL, HC. unfold mps_sum. cbn [add_all sels]. apply head_ok; cbn [cols sel mf ex_t d2 el]; auto.
  - intros l r. cbn [andb orb]. destruct (r <? d2 a); auto.
  - apply (mps_tail A B c _ (d2 b)); auto; try lia. intros ->. cbn in HN. lia.
Qed.
Lemma tail_fit A B D1 D2 : fit R D1 A 1 -> fit R D2 B 1 -> A <> [] -> length A = length B -> fit R (D1 + D2) (add_tail ten (ex_t true true) (ex_t true false) A B) 1.
Proof.
  revert B D1 D2. induction A as [|a A IH]; intros [|b B] D1 D2 FA FB NE HL; try discriminate; [congruence|]. destruct FA as [FA1 FA2], FB as [FB1 FB2]. cbn in HL. cbn [add_tail].
  destruct A as [|a' A], B as [|b' B]; try discriminate.
  - cbn in FA2, FB2. cbn. split; lia.
  - cbn [fit ex_t d0 d2]. split; [lia|]. apply (IH (b' :: B)); auto; try discriminate.
Qed.
Lemma mps_sum_fit A B : fit R 1 A 1 -> fit R 1 B 1 -> 2 <= length A -> length A = length B -> fit R 1 (mps_sum A B) 1.
Proof.
  intros FA FB HN HL. destruct A as [|a A], B as [|b B]; try discriminate; [cbn in HN; lia|]. destruct FA as [FA1 FA2], FB as [FB1 FB2]. cbn in HN, HL. unfold mps_sum. cbn [add_all fit ex_t d0 d2]. split; auto.
  apply tail_fit; auto; try lia. intros ->. cbn in HN. lia.
Qed.
Lemma add_tail_map {T T'} (fm fl : T -> T -> T) (g : T -> T') A B : (forall a b, g (fm a b) = g a) -> (forall a b, g (fl a b) = g a) -> length A = length B -> map g (add_tail T fm fl A B) = map g A.
Proof.
  intros H1 H2. revert B. induction A as [|a A IH]; intros [|b B] H; try discriminate; auto. cbn in H. cbn [add_tail]. destruct A as [|a' A], B as [|b' B]; try discriminate; cbn [map]; [rewrite H2; auto|].
  rewrite H1. f_equal. apply (IH (b' :: B)). cbn in *. lia.
Qed.
Lemma add_all_map {T T'} (fh fm fl : T -> T -> T) (g : T -> T') A B : (forall a b, g (fh a b) = g a) -> (forall a b, g (fm a b) = g a) -> (forall a b, g (fl a b) = g a) -> length A = length B -> map g (add_all T fh fm fl A B) = map g A.
Proof. intros H0 H1 H2 H. destruct A, B; try discriminate; auto. cbn [add_all map]. rewrite H0. f_equal. apply add_tail_map; auto. Qed.

Lemma vget_nth {A} (l : list A) i x : nth_error l i = Some x -> vget l i = Ok x.
Proof. intros H. unfold vget. rewrite H. auto. Qed.
Lemma deref_at (ts : list ten) (st : fmps R) i t : tens st = map Some ts -> nth_error ts i = Some t -> deref R st i = Ok t.
Proof. intros H1 H2. unfold deref, vget. rewrite H1, nth_error_map, H2. auto. Qed.
Lemma map_nth_fit ts D i (t : ten) : fit R D ts 1 -> nth_error ts i = Some t -> d0 t = (match i with O => D | S j => match nth_error ts j with Some t' => d2 t' | None => 0 end end) /\ (S i = length ts -> d2 t = 1).
Proof.
  revert D i. induction ts as [|a ts IH]; intros D i F H; [destruct i; discriminate|]. destruct F as [F1 F2]. destruct i as [|i].
  - injection H as <-. split; auto. intros E. cbn in E. destruct ts; [exact F2|discriminate].
  - cbn [nth_error] in H. destruct (IH (d2 a) i F2 H) as [I1 I2]. split.
    + rewrite I1. destruct i; auto.
    + intros E. apply I2. cbn in E. lia.
Qed.
Variable same_div : ten -> ten -> bool.
Lemma expand_eq x0 x2 (a b : ten) : d1 a = d1 b -> (x0 = false -> d0 a = d0 b) -> (x2 = false -> d2 a = d2 b) -> expand R r0 radd x0 x2 a b = Ok (ex_t x0 x2 a b).
Proof. intros H1 H2 H3. unfold expand. apply Nat.eqb_eq in H1. rewrite H1. destruct x0, x2; cbn [orb andb negb]; rewrite ?(proj2 (Nat.eqb_eq _ _) (H2 eq_refl)), ?(proj2 (Nat.eqb_eq _ _) (H3 eq_refl)); auto. Qed.
Lemma mps_add_ok dbg a b c w ma mb mc A B ds : nth_error w a = Some ma -> nth_error w b = Some mb -> nth_error w c = Some mc -> c <> a -> c <> b ->
  tens ma = map Some A -> tens mb = map Some B -> state_on R ds A -> state_on R ds B -> 2 <= length ds -> length (tens mc) = length ds -> length (types mc) = length ds ->
  (dbg = true -> forall ta tb, nth_error A 0 = Some ta -> nth_error B 0 = Some tb -> same_div ta tb = true) ->
  exists w', mps_add R r0 radd same_div dbg a b c w = Ok w' /\ length w' = length w /\ (forall k, k <> c -> nth_error w' k = nth_error w k) /\
    nth_error w' c = Some (mkFmps (map Some (mps_sum A B)) (repeat NONE (length ds)) (-1)%Z).
Proof.
  intros Ha Hb Hc Nca Ncb TA TB [FA DA] [FB DB] HN LC LT HD.
  assert (LA : length A = length ds) by (rewrite <- DA, map_length; auto). assert (LB : length B = length ds) by (rewrite <- DB, map_length; auto).
  unfold mps_add. rewrite (vget_nth _ _ _ Ha), (vget_nth _ _ _ Hb), (vget_nth _ _ _ Hc). cbn [bind].
  assert (X : (if dbg then let! ta := deref R ma 0 in let! tb := deref R mb 0 in assert_ dbg (same_div ta tb) else Ok tt) = Ok tt).
  { destruct dbg; auto. destruct (nth_error A 0) as [ta|] eqn:E1; [|apply nth_error_None in E1; lia]. destruct (nth_error B 0) as [tb|] eqn:E2; [|apply nth_error_None in E2; lia].
    rewrite (deref_at A ma 0 ta), (deref_at B mb 0 tb) by auto. cbn [bind]. rewrite (HD eq_refl ta tb); auto. }
  rewrite X. cbn [bind]. rewrite TA, TB, !map_length, LA, LB, LC, Nat.eqb_refl. replace (assert_ dbg true) with (Ok tt) by (destruct dbg; auto). cbn [bind].
  set (N := length ds) in *.
  destruct (for_loop_inv (world R) (fun i w' => length w' = length w /\ (forall k, k <> c -> nth_error w' k = nth_error w k) /\
     exists mc', nth_error w' c = Some mc' /\ length (tens mc') = N /\ length (types mc') = N /\
       (forall j, j < i -> nth_error (tens mc') j = option_map Some (nth_error (mps_sum A B) j)) /\ (forall j, j < i -> nth_error (types mc') j = Some NONE) /\ (0 < i -> center mc' = (-1)%Z))
     (fun i w =>
    let! mc := vget w c in let! mc := alloc R i mc in let! w := vset w c mc in
    let! ma := vget w a in let! ta := deref R ma i in
    let! mb := vget w b in let! tb := deref R mb i in
    let! t := (if i =? 0 then expand R r0 radd false true ta tb else if i =? N - 1 then expand R r0 radd true false ta tb else expand R r0 radd true true ta tb) in
    let! mc := vget w c in let! mc := assign R i (Some t) mc in vset w c mc) N 0 w) as (w' & W1 & W2 & W3 & mc' & W4 & W5 & W6 & W7 & W8 & W9).
  - split; auto. split; auto. exists mc. repeat split; auto; intros; lia.
  - intros i w' [_ Hi] (L & O & mc' & M1 & M2 & M3 & M4 & M5 & M6). cbn [Nat.add] in Hi.
    destruct (nth_error A i) as [ta|] eqn:EA; [|apply nth_error_None in EA; lia]. destruct (nth_error B i) as [tb|] eqn:EB; [|apply nth_error_None in EB; lia].
    assert (ES : nth_error (mps_sum A B) i = Some (if i =? 0 then ex_t false true ta tb else if i =? N - 1 then ex_t true false ta tb else ex_t true true ta tb)) by (unfold mps_sum; rewrite (add_all_nth ten _ _ _ A B i ta tb) by (auto; lia); rewrite LA; auto).
    assert (HCc : c < length w') by (apply nth_error_Some; congruence).
    rewrite (vget_nth _ _ _ M1). cbn [bind]. unfold alloc, put. rewrite (vset_ok _ (tens mc') i None) by lia. cbn [bind]. rewrite (vset_ok _ w' c) by auto. cbn [bind].
    rewrite (vget_nth _ a ma) by (rewrite nth_error_upd_other by auto; rewrite O; auto). cbn [bind]. rewrite (deref_at A ma i ta) by auto. cbn [bind].
    rewrite (vget_nth _ b mb) by (rewrite nth_error_upd_other by auto; rewrite O; auto). cbn [bind]. rewrite (deref_at B mb i tb) by auto. cbn [bind].
    assert (P1 : d1 ta = d1 tb). { assert (Y : nth_error (map (@d1 R) A) i = nth_error (map (@d1 R) B) i) by congruence. rewrite !nth_error_map, EA, EB in Y. cbn in Y. congruence. }
    destruct (map_nth_fit A 1 i ta FA EA) as [F1 F2]. destruct (map_nth_fit B 1 i tb FB EB) as [F3 F4].
    assert (EX : (if i =? 0 then expand R r0 radd false true ta tb else if i =? N - 1 then expand R r0 radd true false ta tb else expand R r0 radd true true ta tb) =
      Ok (if i =? 0 then ex_t false true ta tb else if i =? N - 1 then ex_t true false ta tb else ex_t true true ta tb)).
    { destruct (Nat.eqb_spec i 0) as [->|NE]; [apply expand_eq; auto; try congruence; discriminate|]. destruct (Nat.eqb_spec i (N - 1)) as [->|NE']; apply expand_eq; auto; try discriminate. intros _. rewrite F2, F4 by lia. auto. }
    rewrite EX. cbn [bind]. rewrite (vget_nth _ c (mkFmps (upd (tens mc') i None) (types mc') (center mc'))) by (apply nth_error_upd_same; auto). cbn [bind].
    unfold assign, touch. cbn [types tens]. rewrite (vset_ok _ (types mc')) by lia. cbn [bind]. rewrite (vget_nth _ i None) by (apply nth_error_upd_same; lia). cbn [bind]. unfold put. cbn [tens types center].
    rewrite (vset_ok _ (upd (tens mc') i None)) by (rewrite upd_length; lia). cbn [bind]. rewrite (vset_ok _ (upd w' c _)) by (rewrite upd_length; auto).
    eexists. split; [reflexivity|]. rewrite !upd_length. split; auto. split; [intros k Hk; rewrite !nth_error_upd_other by auto; auto|].
    eexists. split; [apply nth_error_upd_same; rewrite upd_length; auto|]. cbn [tens types center]. rewrite !upd_length. repeat split; auto.
    + intros j Hj. destruct (Nat.eq_dec j i) as [->|NE]; [rewrite nth_error_upd_same by (rewrite upd_length; lia); rewrite ES; auto|]. rewrite !nth_error_upd_other by auto. apply M4. lia.
    + intros j Hj. destruct (Nat.eq_dec j i) as [->|NE]; [apply nth_error_upd_same; lia|]. rewrite nth_error_upd_other by auto. apply M5. lia.
  - exists w'. split; [exact W1|]. split; auto. split; auto. rewrite W4. f_equal. cbn [Nat.add] in *. destruct mc' as [tn ty ce]. cbn [tens types center] in *. f_equal.
    + apply nth_error_ext. intros j. destruct (Nat.lt_ge_cases j N) as [HJ|HJ]; [rewrite W7 by auto; rewrite nth_error_map; auto|]. rewrite !(proj2 (nth_error_None _ _)); auto; try lia. rewrite map_length. unfold mps_sum. rewrite add_all_len by lia. lia.
    + apply nth_error_ext. intros j. destruct (Nat.lt_ge_cases j N) as [HJ|HJ].
      * rewrite W8 by auto. symmetry. rewrite (nth_error_nth' _ NONE) by (rewrite repeat_length; auto). f_equal. apply nth_repeat.
      * rewrite !(proj2 (nth_error_None _ _)); auto; rewrite ?repeat_length; lia.
    + apply W9. lia.
Qed.

(** *** Inner product *)
Section Inner.
Variable conj : R -> R.
Hypothesis conj_add : forall x y, conj (x +r y) = conj x +r conj y.
Hypothesis conj_mul : forall x y, conj (x *r y) = conj x *r conj y.
Hypothesis conj_0 : conj r0 = r0.
Hypothesis conj_1 : conj r1 = r1.
Lemma conj_sumn n f : conj (sumn n f) = sumn n (fun i => conj (f i)).
Proof. induction n; cbn; auto. rewrite conj_add, IHn. auto. Qed.
Lemma inner_loop ma mb : forall A B preA preB na nb f ds, tens ma = map Some (preA ++ A) -> tens mb = map Some (preB ++ B) -> length preA = length preB -> length A = length B ->
  fit R na A 1 -> fit R nb B 1 -> map (@d1 R) A = ds -> map (@d1 R) B = ds ->
  exists g, for_loop (length preA) (length A) (fun i tmp => let! ta := deref R ma i in let! tb := deref R mb i in inner_step R r0 radd rmul conj tmp ta tb) (na, nb, f) = Ok (1, 1, g) /\
    g 0 0 = sumn na (fun a => sumn nb (fun b => f a b *r lsum (configs ds) (fun c => mps_mat A c a 0 *r conj (mps_mat B c b 0)))).
Proof.
  induction A as [|ta A IH]; intros [|tb B] preA preB na nb f ds HA HB HP HL FA FB DA DB; try discriminate.
  - cbn in FA, FB, DA. subst. exists f. split; [reflexivity|]. cbn. unfold FmpsSpec.delta. cbn. rewrite conj_1. ring.
  - cbn in FA, FB. destruct FA as [<- FA], FB as [<- FB]. destruct ds as [|d ds]; [discriminate|]. cbn [map] in DA, DB. injection DA as DA1 DA2. injection DB as DB1 DB2. cbn [length for_loop].
    rewrite (deref_at (preA ++ ta :: A) ma (length preA) ta) by (auto; rewrite nth_error_app2, Nat.sub_diag by lia; auto). cbn [bind]. rewrite HP, (deref_at (preB ++ tb :: B) mb (length preB) tb) by (auto; rewrite nth_error_app2, Nat.sub_diag by lia; auto). cbn [bind].
    unfold inner_step at 1. rewrite !Nat.eqb_refl, DA1, DB1, Nat.eqb_refl. cbn [andb negb bind]. rewrite <- HP.
    destruct (IH B (preA ++ [ta]) (preB ++ [tb]) (d2 ta) (d2 tb) (fun r r' => sumn (d0 tb) (fun b => sumn d (fun s => sumn (d0 ta) (fun a => f a b *r el ta a s r) *r conj (el tb b s r')))) ds) as (g & G1 & G2).
    1,2: rewrite <- app_assoc; auto. 1: rewrite !app_length; cbn; lia. 1: cbn in HL; lia. 1,2,3,4: auto.
    exists g. split; [rewrite app_length in G1; cbn [length] in G1; rewrite Nat.add_1_r in G1; exact G1|]. rewrite G2. clear G1 G2 IH.
    transitivity (sumn (d2 ta) (fun r => sumn (d2 tb) (fun r' => sumn (d0 tb) (fun b => sumn d (fun s => sumn (d0 ta) (fun a => f a b *r el ta a s r *r conj (el tb b s r') *r lsum (configs ds) (fun c => mps_mat A c r 0 *r conj (mps_mat B c r' 0)))))))).
    { apply s_ext. intros r _. apply s_ext. intros r' _. rewrite s_mulr. apply s_ext. intros b _. rewrite s_mulr. apply s_ext. intros s _. rewrite !s_mulr. apply s_ext. intros a _. auto. }
    transitivity (sumn (d0 ta) (fun a => sumn (d0 tb) (fun b => sumn d (fun s => sumn (d2 ta) (fun r => sumn (d2 tb) (fun r' => f a b *r el ta a s r *r conj (el tb b s r') *r lsum (configs ds) (fun c => mps_mat A c r 0 *r conj (mps_mat B c r' 0)))))))).
    { (* reorder *)
      transitivity (sumn (d2 ta) (fun r => sumn (d2 tb) (fun r' => sumn (d0 ta) (fun a => sumn (d0 tb) (fun b => sumn d (fun s => f a b *r el ta a s r *r conj (el tb b s r') *r lsum (configs ds) (fun c => mps_mat A c r 0 *r conj (mps_mat B c r' 0)))))))).
      { apply s_ext. intros r _. apply s_ext. intros r' _. rewrite s_swap. transitivity (sumn d (fun s => sumn (d0 ta) (fun a => sumn (d0 tb) (fun b => f a b *r el ta a s r *r conj (el tb b s r') *r lsum (configs ds) (fun c => mps_mat A c r 0 *r conj (mps_mat B c r' 0)))))).
        - apply s_ext. intros s _. apply s_swap.
        - rewrite s_swap. apply s_ext. intros a _. apply s_swap. }
      transitivity (sumn (d2 ta) (fun r => sumn (d0 ta) (fun a => sumn (d0 tb) (fun b => sumn d (fun s => sumn (d2 tb) (fun r' => f a b *r el ta a s r *r conj (el tb b s r') *r lsum (configs ds) (fun c => mps_mat A c r 0 *r conj (mps_mat B c r' 0)))))))).
      { apply s_ext. intros r _. rewrite s_swap. apply s_ext. intros a _. rewrite s_swap. apply s_ext. intros b _. apply s_swap. }
      rewrite s_swap. apply s_ext. intros a _. rewrite s_swap. apply s_ext. intros b _. apply s_swap. }
    apply s_ext. intros a _. apply s_ext. intros b _. rewrite cfg_cons, s_mull. apply s_ext. intros s _. rewrite l_mull.
    transitivity (sumn (d2 ta) (fun r => sumn (d2 tb) (fun r' => lsum (configs ds) (fun c => f a b *r (el ta a s r *r mps_mat A c r 0 *r (conj (el tb b s r') *r conj (mps_mat B c r' 0))))))).
    { apply s_ext. intros r _. apply s_ext. intros r' _. rewrite l_mull. apply l_ext. intros. ring. }
    rewrite (s_ext (d2 ta) _ (fun r => lsum (configs ds) (fun c => sumn (d2 tb) (fun r' => f a b *r (el ta a s r *r mps_mat A c r 0 *r (conj (el tb b s r') *r conj (mps_mat B c r' 0))))))) by (intros; rewrite l_sumn; auto).
    rewrite <- l_sumn. apply l_ext. intros c _. cbn [EffHamSpec.mps_mat]. rewrite conj_sumn, s_mulr, s_mull. apply s_ext. intros r _. rewrite s_mull, s_mull. apply s_ext. intros r' _. rewrite conj_mul. ring.
Qed.
Lemma mps_inner_ok ma mb A B ds : tens ma = map Some A -> tens mb = map Some B -> state_on R ds A -> state_on R ds B -> 1 <= length ds ->
  mps_inner R r0 r1 radd rmul conj ma mb = Ok (overlap R r0 r1 radd rmul conj ds A B).
Proof.
  intros HA HB [FA DA] [FB DB] HN. assert (LA : length A = length ds) by (rewrite <- DA, map_length; auto). assert (LB : length B = length ds) by (rewrite <- DB, map_length; auto).
  unfold mps_inner. destruct A as [|t0 A]; [cbn in LA; lia|]. rewrite (deref_at (t0 :: A) ma 0 t0) by auto. cbn [bind]. assert (E : d0 t0 = 1) by apply FA. rewrite E, HA, map_length.
  destruct (inner_loop ma mb (t0 :: A) B [] [] 1 1 (fun a b => if (a =? 0) && (b =? 0) then r1 else r0) ds HA HB eq_refl ltac:(lia) FA FB DA DB) as (g & G1 & G2).
  cbn [length] in G1. cbn [length]. rewrite G1. cbn [bind Nat.ltb Nat.leb andb]. rewrite G2. cbn [FmpsSpec.sumn Nat.eqb andb]. f_equal. unfold overlap, amp. ring.
Qed.
End Inner.

(** ** FiniteMPO *)
Definition ex4 (x0 x3 : bool) (a b : ten4) : ten4 :=
  mkTen4 (if x0 then m0 a + m0 b else m0 a) (m1 a) (m2 a) (if x3 then m3 a + m3 b else m3 a) (fun l s s' r =>
    match x0 && negb (l <? m0 a), x3 && negb (r <? m3 a) with
    | false, false => if x0 || x3 then e4 a l s s' r else e4 a l s s' r +r e4 b l s s' r
    | true, true => e4 b (l - m0 a) s s' (r - m3 a)
    | true, false => if x3 then r0 else e4 b (l - m0 a) s s' r
    | false, true => if x0 then r0 else e4 b l s s' (r - m3 a)
    end).
Definition mpo_sum : list ten4 -> list ten4 -> list ten4 := add_all ten4 (ex4 false true) (ex4 true true) (ex4 true false).
Definition sel4 (t : ten4) (s s' : nat) : mat := mkMat (m3 t) (fun x z => e4 t x s s' z).
Fixpoint sels4 (ts : list ten4) (c c' : list nat) : list mat := match ts, c, c' with t :: ts, s :: c, s' :: c' => sel4 t s s' :: sels4 ts c c' | _, _, _ => [] end.
Lemma sels4_ok ts c c' x y : length c = length ts -> length c' = length ts -> o4_mat ts c c' x y = mch (sels4 ts c c') x y.
Proof. revert c c' x. induction ts as [|t ts IH]; intros [|s c] [|s' c'] x H H'; try discriminate; cbn [FinMpoSpec.o4_mat sels4 mch]; auto. cbn [cols mf sel4]. apply s_ext. intros. rewrite IH; auto. Qed.
Notation fit4 := (fit4 R).
Lemma mpo_tail A B c c' D1 D2 : fit4 D1 A 1 -> fit4 D2 B 1 -> A <> [] -> length A = length B -> length c = length A -> length c' = length A ->
  tail_sum D1 (sels4 A c c') (sels4 B c c') (sels4 (add_tail ten4 (ex4 true true) (ex4 true false) A B) c c').
Proof.
  revert B c c' D1 D2. induction A as [|a A IH]; intros [|b B] [|s c] [|s' c'] D1 D2 FA FB NE HL HC HC'; try discriminate; [congruence|]. destruct FA as [FA1 FA2], FB as [FB1 FB2]. cbn in HL, HC, HC'. cbn [add_tail].
  destruct A as [|a' A], B as [|b' B]; try discriminate.
  - destruct c; [|discriminate]. cbn in FA2, FB2. cbn [sels4]. constructor; cbn [cols sel4 mf ex4 m3 e4]; auto; [lia|]. intros l r. rewrite FA1. cbn [andb orb]. destruct (l <? D1); auto.
  - cbn [sels4]. apply ts_mid; cbn [cols sel4 mf ex4 m3 e4]; auto.
    + intros l r. rewrite FA1. cbn [andb orb]. destruct (l <? D1), (r <? m3 a); auto.
    + apply (IH (b' :: B) c c' _ (m3 b)); auto; try discriminate.
Qed.
Lemma mpo_sum_elem A B c c' x y : fit4 1 A 1 -> fit4 1 B 1 -> 2 <= length A -> length A = length B -> length c = length A -> length c' = length A ->
  o4_mat (mpo_sum A B) c c' x y = o4_mat A c c' x y +r o4_mat B c c' x y.
Proof.
  intros FA FB HN HL HC HC'. rewrite !sels4_ok by (rewrite ?add_all_len; lia || (unfold mpo_sum; rewrite add_all_len; lia)). destruct A as [|a A], B as [|b B], c as [|s c], c' as [|s' c']; try discriminate; [cbn in HN; lia|].
  destruct FA as [FA1 FA2], FB as [FB1 FB2]. cbn in HN, HL, HC, HC'. unfold mpo_sum. cbn [add_all sels4]. apply head_ok; cbn [cols sel4 mf ex4 m3 e4]; auto.
  - intros l r. cbn [andb orb]. destruct (r <? m3 a); auto.
  - apply (mpo_tail A B c c' _ (m3 b)); auto; try lia. intros ->. cbn in HN. lia.
Qed.
Lemma tail_fit4 A B D1 D2 : fit4 D1 A 1 -> fit4 D2 B 1 -> A <> [] -> length A = length B -> fit4 (D1 + D2) (add_tail ten4 (ex4 true true) (ex4 true false) A B) 1.
Proof.
  revert B D1 D2. induction A as [|a A IH]; intros [|b B] D1 D2 FA FB NE HL; try discriminate; [congruence|]. destruct FA as [FA1 FA2], FB as [FB1 FB2]. cbn in HL. cbn [add_tail].
  destruct A as [|a' A], B as [|b' B]; try discriminate.
  - cbn in FA2, FB2. cbn. split; lia.
  - cbn [FinMpoSpec.fit4 ex4 m0 m3]. split; [lia|]. apply (IH (b' :: B)); auto; try discriminate.
Qed.
Lemma mpo_sum_fit A B : fit4 1 A 1 -> fit4 1 B 1 -> 2 <= length A -> length A = length B -> fit4 1 (mpo_sum A B) 1.
Proof.
  intros FA FB HN HL. destruct A as [|a A], B as [|b B]; try discriminate; [cbn in HN; lia|]. destruct FA as [FA1 FA2], FB as [FB1 FB2]. cbn in HN, HL. unfold mpo_sum. cbn [add_all FinMpoSpec.fit4 ex4 m0 m3]. split; auto.
  apply tail_fit4; auto; try lia. intros ->. cbn in HN. lia.
Qed.
Lemma mderef_at (ts : list ten4) (st : fmpo R) i t : mtens st = map Some ts -> nth_error ts i = Some t -> mderef R st i = Ok t.
Proof. intros H1 H2. unfold mderef, vget. rewrite H1, nth_error_map, H2. auto. Qed.
Lemma nth_fit4 ts D i (t : ten4) : fit4 D ts 1 -> nth_error ts i = Some t -> m0 t = (match i with O => D | S j => match nth_error ts j with Some t' => m3 t' | None => 0 end end) /\ (S i = length ts -> m3 t = 1).
Proof.
  revert D i. induction ts as [|a ts IH]; intros D i F H; [destruct i; discriminate|]. destruct F as [F1 F2]. destruct i as [|i].
  - injection H as <-. split; auto. intros E. cbn in E. destruct ts; [exact F2|discriminate].
  - cbn [nth_error] in H. destruct (IH (m3 a) i F2 H) as [I1 I2]. split.
    + rewrite I1. destruct i; auto.
    + intros E. apply I2. cbn in E. lia.
Qed.
Lemma expand4_eq x0 x3 (a b : ten4) : m1 a = m1 b -> m2 a = m2 b -> (x0 = false -> m0 a = m0 b) -> (x3 = false -> m3 a = m3 b) -> expand4 R r0 radd x0 x3 a b = Ok (ex4 x0 x3 a b).
Proof.
  intros H1 H1' H2 H3. unfold expand4. apply Nat.eqb_eq in H1. apply Nat.eqb_eq in H1'. rewrite H1, H1'. destruct x0, x3; cbn [orb andb negb]; rewrite ?(proj2 (Nat.eqb_eq _ _) (H2 eq_refl)), ?(proj2 (Nat.eqb_eq _ _) (H3 eq_refl)); auto.
Qed.
Lemma dims_same ds A B i (ta tb : ten4) : oper_on R ds A -> oper_on R ds B -> nth_error A i = Some ta -> nth_error B i = Some tb -> m1 ta = m1 tb /\ m2 ta = m2 tb /\ m1 ta = m2 ta /\ nth_error ds i = Some (m1 ta).
Proof.
  intros (_ & A1 & A2) (_ & B1 & B2) EA EB. apply (f_equal (fun l => nth_error l i)) in A1, A2, B1, B2. rewrite nth_error_map, EA in A1, A2. rewrite nth_error_map, EB in B1, B2. cbn in *.
  assert (m1 ta = m1 tb) by congruence. assert (m2 ta = m2 tb) by congruence. assert (m1 ta = m2 ta) by congruence. repeat split; congruence.
Qed.
Lemma oper_len ds (A : list ten4) : oper_on R ds A -> length A = length ds.
Proof. intros (_ & H & _). rewrite <- H, map_length. auto. Qed.
(** [a] and [b] may be the same object *)
Lemma mpo_add_ok dbg a b w ma mb A B ds : nth_error w a = Some ma -> nth_error w b = Some mb ->
  holds4 R ma A -> holds4 R mb B -> oper_on R ds A -> oper_on R ds B -> 2 <= length ds ->
  exists w', mpo_add R r0 radd dbg a b w = Ok w' /\ length w' = length w /\ (forall k, k <> a -> nth_error w' k = nth_error w k) /\
    nth_error w' a = Some (mkFmpo (map Some (mpo_sum A B)) (repeat NONE (length ds)) (-1)%Z).
Proof.
  intros Ha Hb [TA YA] [TB YB] OA OB HN. assert (LA := oper_len _ _ OA). assert (LB := oper_len _ _ OB). assert (FA : fit4 1 A 1) by apply OA. assert (FB : fit4 1 B 1) by apply OB.
  unfold mpo_add. rewrite (vget_nth _ _ _ Ha), (vget_nth _ _ _ Hb). cbn [bind]. rewrite TA, TB, !map_length, LA, LB, Nat.eqb_refl. replace (assert_ dbg true) with (Ok tt) by (destruct dbg; auto). cbn [bind].
  set (N := length ds) in *.
  match goal with |- context [for_loop 0 N ?f w] => destruct (for_loop_inv (list (fmpo R)) (fun i w' => length w' = length w /\ (forall k, k <> a -> nth_error w' k = nth_error w k) /\
     exists ma', nth_error w' a = Some ma' /\ length (mtens ma') = N /\ length (mtypes ma') = N /\
       (forall j, j < i -> nth_error (mtens ma') j = option_map Some (nth_error (mpo_sum A B) j)) /\ (forall j, i <= j -> nth_error (mtens ma') j = option_map Some (nth_error A j)) /\
       (forall j, j < i -> nth_error (mtypes ma') j = Some NONE) /\ (0 < i -> mcenter ma' = (-1)%Z)) f N 0 w) as (w' & W1 & W2 & W3 & ma' & W4 & W5 & W6 & W7 & W7' & W8 & W9) end.
  - split; auto. split; auto. exists ma. rewrite TA, map_length. repeat split; auto; intros; try lia. apply nth_error_map.
  - intros i w' [_ Hi] (L & O & ma' & M1 & M2 & M3 & M4 & M4' & M5 & M6). cbn [Nat.add] in Hi.
    destruct (nth_error A i) as [ta|] eqn:EA; [|apply nth_error_None in EA; lia]. destruct (nth_error B i) as [tb|] eqn:EB; [|apply nth_error_None in EB; lia].
    assert (ES : nth_error (mpo_sum A B) i = Some (if i =? 0 then ex4 false true ta tb else if i =? N - 1 then ex4 true false ta tb else ex4 true true ta tb)) by (unfold mpo_sum; rewrite (add_all_nth ten4 _ _ _ A B i ta tb) by (auto; lia); rewrite LA; auto).
    assert (HCa : a < length w') by (apply nth_error_Some; congruence).
    rewrite (vget_nth _ _ _ M1). cbn [bind]. unfold mtouch. rewrite (vset_ok _ (mtypes ma') i NONE) by lia. cbn [bind].
    assert (EI : nth_error (mtens ma') i = Some (Some ta)) by (rewrite M4' by lia; rewrite EA; auto). rewrite (vget_nth _ i _ EI). cbn [bind]. rewrite (vset_ok _ w' a) by auto. cbn [bind mtens]. rewrite (vget_nth _ i _ EI). cbn [bind].
    replace (assert_ dbg true) with (Ok tt) by (destruct dbg; auto). cbn [bind]. unfold mderef at 1. cbn [mtens]. rewrite (vget_nth _ i _ EI). cbn [bind].
    assert (EB' : exists mb', nth_error (upd w' a (mkFmpo (mtens ma') (upd (mtypes ma') i NONE) (-1)%Z)) b = Some mb' /\ mderef R mb' i = Ok tb).
    { destruct (Nat.eq_dec b a) as [->|NE].
      - rewrite nth_error_upd_same by auto. eexists. split; [reflexivity|]. unfold mderef. cbn [mtens]. rewrite (vget_nth _ i _ EI). cbn [bind]. assert (mb = ma) by congruence. subst mb.
        assert (A = B). { rewrite TA in TB. clear - TB. revert B TB. induction A; intros [|b B] H; try discriminate; auto. cbn in H. injection H as H1 H2. f_equal; auto. } congruence.
      - rewrite nth_error_upd_other by auto. rewrite O by auto. exists mb. split; auto. apply (mderef_at B); auto. }
    destruct EB' as (mb' & E1 & E2). rewrite (vget_nth _ _ _ E1). cbn [bind]. rewrite E2. cbn [bind].
    destruct (dims_same ds A B i ta tb OA OB EA EB) as (P1 & P2 & _ & _).
    destruct (nth_fit4 A 1 i ta FA EA) as [F1 F2]. destruct (nth_fit4 B 1 i tb FB EB) as [F3 F4].
    assert (EX : (if i =? 0 then expand4 R r0 radd false true ta tb else if i =? N - 1 then expand4 R r0 radd true false ta tb else expand4 R r0 radd true true ta tb) =
      Ok (if i =? 0 then ex4 false true ta tb else if i =? N - 1 then ex4 true false ta tb else ex4 true true ta tb)).
    { destruct (Nat.eqb_spec i 0) as [->|NE]; [apply expand4_eq; auto; try congruence; discriminate|]. destruct (Nat.eqb_spec i (N - 1)) as [->|NE']; apply expand4_eq; auto; try discriminate. intros _. rewrite F2, F4 by lia. auto. }
    rewrite EX. cbn [bind]. unfold mput. cbn [mtens mtypes mcenter]. rewrite (vset_ok _ (mtens ma')) by lia. cbn [bind]. rewrite (vset_ok _ (upd w' a _)) by (rewrite upd_length; auto).
    eexists. split; [reflexivity|]. rewrite !upd_length. split; auto. split; [intros k Hk; rewrite !nth_error_upd_other by auto; auto|].
    eexists. split; [apply nth_error_upd_same; rewrite upd_length; auto|]. cbn [mtens mtypes mcenter]. rewrite !upd_length. repeat split; auto.
    + intros j Hj. destruct (Nat.eq_dec j i) as [->|NE]; [rewrite nth_error_upd_same by lia; rewrite ES; auto|]. rewrite !nth_error_upd_other by auto. apply M4. lia.
    + intros j Hj. rewrite nth_error_upd_other by lia. apply M4'. lia.
    + intros j Hj. destruct (Nat.eq_dec j i) as [->|NE]; [apply nth_error_upd_same; lia|]. rewrite nth_error_upd_other by auto. apply M5. lia.
  - exists w'. split; [exact W1|]. split; auto. split; auto. rewrite W4. f_equal. cbn [Nat.add] in *. destruct ma' as [tn ty ce]. cbn [mtens mtypes mcenter] in *. f_equal.
    + apply nth_error_ext. intros j. destruct (Nat.lt_ge_cases j N) as [HJ|HJ]; [rewrite W7 by auto; rewrite nth_error_map; auto|]. rewrite !(proj2 (nth_error_None _ _)); auto; try lia. rewrite map_length. unfold mpo_sum. rewrite add_all_len by lia. lia.
    + apply nth_error_ext. intros j. destruct (Nat.lt_ge_cases j N) as [HJ|HJ].
      * rewrite W8 by auto. symmetry. rewrite (nth_error_nth' _ NONE) by (rewrite repeat_length; auto). f_equal. apply nth_repeat.
      * rewrite !(proj2 (nth_error_None _ _)); auto; rewrite ?repeat_length; lia.
    + apply W9. lia.
Qed.
Lemma mpo_sum_oper ds A B : oper_on R ds A -> oper_on R ds B -> 2 <= length ds -> oper_on R ds (mpo_sum A B).
Proof.
  intros OA OB HN. assert (LA := oper_len _ _ OA). assert (LB := oper_len _ _ OB). destruct OA as (FA & A1 & A2), OB as (FB & B1 & B2). split; [apply mpo_sum_fit; auto; lia|]. unfold mpo_sum.
  split; (rewrite add_all_map; [auto|auto|auto|auto|lia]).
Qed.

(** *** scaling one tensor *)
Lemma scale_at ts i t s D c c' x y : fit4 D ts 1 -> nth_error ts i = Some t -> length c = length ts -> length c' = length ts ->
  o4_mat (upd ts i (tscale R rmul s t)) c c' x y = s *r o4_mat ts c c' x y.
Proof.
  revert i D c c' x. induction ts as [|a ts IH]; intros i D c c' x F H HC HC'; [destruct i; discriminate|]. destruct F as [F1 F2]. destruct c as [|k c], c' as [|k' c']; try discriminate.
  destruct i as [|i]; cbn [upd FinMpoSpec.o4_mat nth_error] in *.
  - injection H as <-. cbn [tscale m3 e4]. rewrite s_mull. apply s_ext. intros. ring.
  - rewrite s_mull. apply s_ext. intros z Hz. rewrite (IH i (m3 a) c c' z F2 H) by (cbn in HC, HC'; lia). ring.
Qed.
Lemma upd_same {A} (l : list A) i x : nth_error l i = Some x -> upd l i x = l.
Proof. revert i. induction l as [|a l IH]; intros [|i] H; try discriminate; cbn in *; [congruence|]. rewrite IH; auto. Qed.
Lemma map_upd {A B} (f : A -> B) l i x : map f (upd l i x) = upd (map f l) i (f x).
Proof. revert i. induction l as [|a l IH]; intros [|i]; cbn; auto. rewrite IH. auto. Qed.
Lemma scale_fit ts i t s D E : nth_error ts i = Some t -> fit4 D ts E -> fit4 D (upd ts i (tscale R rmul s t)) E.
Proof. revert i D. induction ts as [|a ts IH]; intros [|i] D H F; try discriminate; cbn in *; [injection H as <-; auto|]. destruct F. split; eauto. Qed.
Lemma scale_oper ds ts i t s : nth_error ts i = Some t -> oper_on R ds ts -> oper_on R ds (upd ts i (tscale R rmul s t)).
Proof.
  intros H (F & A1 & A2). split; [eapply scale_fit; eauto|]. rewrite !map_upd. cbn [tscale m1 m2]. rewrite !upd_same by (rewrite nth_error_map, H; auto). auto.
Qed.

(** *** identity *)
Lemma list_dec_cons (s s' : nat) c c' : (if list_eq_dec Nat.eq_dec (s :: c) (s' :: c') then r1 else r0) = if s =? s' then (if list_eq_dec Nat.eq_dec c c' then r1 else r0) else r0.
Proof. destruct (list_eq_dec Nat.eq_dec (s :: c) (s' :: c')) as [E|NE], (Nat.eqb_spec s s') as [->|N']; destruct (list_eq_dec Nat.eq_dec c c') as [->|N'']; auto; congruence. Qed.
Lemma id_elem ts c c' : Forall2 (fun s d => s < d) c (map (@m1 R) ts) -> length c' = length ts -> o4_mat (map (id_ten R r0 r1) ts) c c' 0 0 = o_id R r0 r1 c c'.
Proof.
  revert c c'. induction ts as [|t ts IH]; intros c c' H H'; inversion H as [|s d c0 ds0 H1 H2]; subst; destruct c' as [|s' c']; try discriminate; cbn [map FinMpoSpec.o4_mat].
  - unfold FmpsSpec.delta, o_id. cbn. auto.
  - cbn [id_ten m3 e4 FmpsSpec.sumn]. rewrite IH by (auto; cbn in H'; lia). unfold o_id. rewrite list_dec_cons. destruct (Nat.ltb_spec s (m1 t)); [|lia]. rewrite andb_true_r. destruct (s =? s'); ring.
Qed.

(** *** product *)
Definition pr4 (t1 t2 : ten4) : ten4 :=
  mkTen4 (m0 t1 * m0 t2) (m1 t2) (m2 t1) (m3 t1 * m3 t2) (fun l s s' r =>
    sumn (m1 t1) (fun k => e4 t1 (l / m0 t2) k s' (r / m3 t2) *r e4 t2 (l mod m0 t2) s k (r mod m3 t2))).
Fixpoint mpo_prod (A B : list ten4) : list ten4 := match A, B with a :: A, b :: B => pr4 a b :: mpo_prod A B | _, _ => [] end.
Lemma prod_elem A B D1 D2 c c' l : fit4 D1 A 1 -> fit4 D2 B 1 -> length A = length B -> map (@m1 R) A = map (@m2 R) B -> length c = length A -> length c' = length A -> l < D1 * D2 ->
  o4_mat (mpo_prod A B) c c' l 0 = lsum (configs (map (@m1 R) A)) (fun k => o4_mat A k c' (l / D2) 0 *r o4_mat B c k (l mod D2) 0).
Proof.
  revert B D1 D2 c c' l. induction A as [|a A IH]; intros [|b B] D1 D2 c c' l FA FB HL HD HC HC' Hl; try discriminate.
  - destruct c, c'; try discriminate. cbn in FA, FB. subst. assert (l = 0) by lia. subst l. cbn. unfold FmpsSpec.delta. cbn. ring.
  - destruct c as [|s c], c' as [|s' c']; try discriminate. destruct FA as [<- FA], FB as [<- FB]. cbn [map] in HD. injection HD as HD1 HD2. cbn [map length] in *. rewrite cfg_cons. cbn [mpo_prod FinMpoSpec.o4_mat]. cbn [pr4 m3 e4].
    assert (D20 : m3 a * m3 b = 0 \/ 0 < m3 b) by (destruct (m3 b); [left; lia|right; lia]).
    transitivity (sumn (m3 a * m3 b) (fun z => sumn (m1 a) (fun k => e4 a (l / m0 b) k s' (z / m3 b) *r e4 b (l mod m0 b) s k (z mod m3 b)) *r lsum (configs (map (@m1 R) A)) (fun k => o4_mat A k c' (z / m3 b) 0 *r o4_mat B c k (z mod m3 b) 0))).
    { apply s_ext. intros z Hz. rewrite (IH B (m3 a) (m3 b) c c' z) by (auto; lia). auto. }
    set (F := fun i j => sumn (m1 a) (fun k => e4 a (l / m0 b) k s' i *r e4 b (l mod m0 b) s k j) *r lsum (configs (map (@m1 R) A)) (fun k => o4_mat A k c' i 0 *r o4_mat B c k j 0)).
    assert (E : sumn (m3 a * m3 b) (fun z => F (z / m3 b) (z mod m3 b)) = sumn (m3 a) (fun i => sumn (m3 b) (fun j => F i j))).
    { destruct (Nat.eq_dec (m3 b) 0) as [Z|NZ]; [rewrite Z, Nat.mul_0_r; cbn; symmetry; apply s_0; auto|apply s_flat; lia]. }
    etransitivity; [exact E|]. unfold F. clear E F IH.
    transitivity (sumn (m3 a) (fun i => sumn (m3 b) (fun j => sumn (m1 a) (fun k => lsum (configs (map (@m1 R) A)) (fun q => (e4 a (l / m0 b) k s' i *r o4_mat A q c' i 0) *r (e4 b (l mod m0 b) s k j *r o4_mat B c q j 0)))))).
    { apply s_ext. intros i _. apply s_ext. intros j _. rewrite s_mulr. apply s_ext. intros k _. rewrite l_mull. apply l_ext. intros q _. ring. }
    transitivity (sumn (m3 a) (fun i => sumn (m1 a) (fun k => lsum (configs (map (@m1 R) A)) (fun q => sumn (m3 b) (fun j => (e4 a (l / m0 b) k s' i *r o4_mat A q c' i 0) *r (e4 b (l mod m0 b) s k j *r o4_mat B c q j 0)))))).
    { apply s_ext. intros i _. rewrite s_swap. apply s_ext. intros k _. rewrite l_sumn. auto. }
    rewrite s_swap. apply s_ext. intros k _. rewrite <- l_sumn. apply l_ext. intros q _. rewrite s_mulr. apply s_ext. intros i _. rewrite s_mull. auto.
Qed.
Lemma prod_len A B : length A = length B -> length (mpo_prod A B) = length A.
Proof. revert B. induction A; intros [|b B] H; try discriminate; cbn; auto. Qed.
Lemma prod_fit A B D1 D2 : fit4 D1 A 1 -> fit4 D2 B 1 -> length A = length B -> fit4 (D1 * D2) (mpo_prod A B) 1.
Proof. revert B D1 D2. induction A as [|a A IH]; intros [|b B] D1 D2 FA FB HL; try discriminate; cbn in *; [subst; auto|]. destruct FA as [<- FA], FB as [<- FB]. split; auto. Qed.
Lemma prod_oper ds A B : oper_on R ds A -> oper_on R ds B -> oper_on R ds (mpo_prod A B).
Proof.
  intros OA OB. assert (LA := oper_len _ _ OA). assert (LB := oper_len _ _ OB). destruct OA as (FA & A1 & A2), OB as (FB & B1 & B2). split; [apply (prod_fit A B 1 1); auto; lia|].
  assert (HL : length A = length B) by lia. clear - HL A2 B1. revert B ds HL A2 B1. induction A as [|a A IH]; intros [|b B] ds HL A2 B1; try discriminate; cbn in *; auto. destruct ds as [|d ds]; [discriminate|]. injection A2 as ? ?. injection B1 as ? ?. destruct (IH B ds) as [I1 I2]; auto. split; f_equal; auto.
Qed.
Lemma prod_nth A B i (a b : ten4) : nth_error A i = Some a -> nth_error B i = Some b -> nth_error (mpo_prod A B) i = Some (pr4 a b).
Proof. revert B i. induction A as [|x A IH]; intros [|y B] [|i] H1 H2; try discriminate; cbn in *; [congruence|eauto]. Qed.
Lemma mpo_product_ok p1 p2 out A B ds : holds4 R p1 A -> holds4 R p2 B -> oper_on R ds A -> oper_on R ds B -> length (mtens out) = length ds -> length (mtypes out) = length ds -> 1 <= length ds ->
  mpo_product R r0 radd rmul p1 p2 out = Ok (mkFmpo (map Some (mpo_prod A B)) (repeat NONE (length ds)) (-1)%Z).
Proof.
  intros [TA YA] [TB YB] OA OB L1 L2 HN. assert (LA := oper_len _ _ OA). assert (LB := oper_len _ _ OB). unfold mpo_product. rewrite TA, map_length, LA. set (N := length ds) in *.
  destruct (for_loop_inv (fmpo R) (fun i o => length (mtens o) = N /\ length (mtypes o) = N) (fun i out => let! out := mtouch R i out in mput R i None out) N 0 out) as (o1 & O1 & O2 & O3).
  - auto.
  - intros i o [_ Hi] [I1 I2]. unfold mtouch. rewrite (vset_ok _ (mtypes o)) by lia. cbn [bind]. destruct (vget_ok _ (mtens o) i) as (x & E & _); [lia|]. rewrite E. cbn [bind]. unfold mput. cbn [mtens mtypes mcenter]. rewrite vset_ok by lia. eexists. split; [reflexivity|].
    cbn [mtens mtypes]. rewrite !upd_length. auto.
  - rewrite O1. cbn [bind].
    match goal with |- for_loop 0 N ?f o1 = _ => destruct (for_loop_inv (fmpo R) (fun i o => length (mtens o) = N /\ length (mtypes o) = N /\ (forall j, j < i -> nth_error (mtens o) j = option_map Some (nth_error (mpo_prod A B) j)) /\
        (forall j, j < i -> nth_error (mtypes o) j = Some NONE) /\ (0 < i -> mcenter o = (-1)%Z)) f N 0 o1) as (o2 & P1 & P2 & P3 & P4 & P5 & P6) end.
    + repeat split; auto; intros; lia.
    + intros i o [_ Hi] (I1 & I2 & I3 & I4 & I5). cbn [Nat.add] in Hi. destruct (nth_error A i) as [ta|] eqn:EA; [|apply nth_error_None in EA; lia]. destruct (nth_error B i) as [tb|] eqn:EB; [|apply nth_error_None in EB; lia].
      rewrite (mderef_at A p1 i ta), (mderef_at B p2 i tb) by auto. cbn [bind]. destruct (dims_same ds A B i ta tb OA OB EA EB) as (Q1 & Q2 & Q3 & _). unfold prod_ten. replace (m1 ta =? m2 tb) with true by (symmetry; apply Nat.eqb_eq; congruence). cbn [negb bind].
      unfold mtouch. rewrite (vset_ok _ (mtypes o)) by lia. cbn [bind]. destruct (vget_ok _ (mtens o) i) as (x & E & _); [lia|]. rewrite E. cbn [bind]. unfold mput. cbn [mtens mtypes mcenter]. rewrite vset_ok by lia. eexists. split; [reflexivity|].
      cbn [mtens mtypes mcenter]. rewrite !upd_length. repeat split; auto.
      * intros j Hj. destruct (Nat.eq_dec j i) as [->|NE]; [rewrite nth_error_upd_same by lia; rewrite (prod_nth A B i ta tb) by auto; auto|]. rewrite nth_error_upd_other by auto. apply I3. lia.
      * intros j Hj. destruct (Nat.eq_dec j i) as [->|NE]; [apply nth_error_upd_same; lia|]. rewrite nth_error_upd_other by auto. apply I4. lia.
    + rewrite P1. f_equal. cbn [Nat.add] in *. destruct o2 as [tn ty ce]. cbn [mtens mtypes mcenter] in *. f_equal.
      * apply nth_error_ext. intros j. destruct (Nat.lt_ge_cases j N) as [HJ|HJ]; [rewrite P4 by auto; rewrite nth_error_map; auto|]. rewrite !(proj2 (nth_error_None _ _)); auto; try lia. rewrite map_length, prod_len; lia.
      * apply nth_error_ext. intros j. destruct (Nat.lt_ge_cases j N) as [HJ|HJ].
        -- rewrite P5 by auto. symmetry. rewrite (nth_error_nth' _ NONE) by (rewrite repeat_length; auto). f_equal. apply nth_repeat.
        -- rewrite !(proj2 (nth_error_None _ _)); auto; rewrite ?repeat_length; lia.
      * apply P6. lia.
Qed.
(** identity object *)
Lemma mpo_identity_ok h A ds : holds4 R h A -> oper_on R ds A -> 1 <= length ds ->
  mpo_identity R r0 r1 h = Ok (mkFmpo (map Some (map (id_ten R r0 r1) A)) (repeat NONE (length ds)) (-1)%Z).
Proof.
  intros [TA YA] OA HN. assert (LA := oper_len _ _ OA). assert (FA : fit4 1 A 1) by apply OA. unfold mpo_identity. destruct A as [|t0 A']; [cbn in LA; lia|]. set (A := t0 :: A') in *. rewrite (mderef_at A h 0 t0) by auto. cbn [bind].
  replace (m0 t0 =? 1) with true by (symmetry; apply Nat.eqb_eq; apply FA). cbn [negb]. rewrite TA, map_length, LA. set (N := length ds) in *.
  match goal with |- for_loop 0 N ?f ?o1 = _ => destruct (for_loop_inv (fmpo R) (fun i o => length (mtens o) = N /\ length (mtypes o) = N /\ (forall j, j < i -> nth_error (mtens o) j = option_map Some (nth_error (map (id_ten R r0 r1) A) j)) /\
        (forall j, j < i -> nth_error (mtypes o) j = Some NONE) /\ (0 < i -> mcenter o = (-1)%Z)) f N 0 o1) as (o2 & P1 & P2 & P3 & P4 & P5 & P6) end.
  - cbn. rewrite !repeat_length. repeat split; auto; intros; lia.
  - intros i o [_ Hi] (I1 & I2 & I3 & I4 & I5). cbn [Nat.add] in Hi. destruct (nth_error A i) as [ta|] eqn:EA; [|apply nth_error_None in EA; lia].
    rewrite (mderef_at A h i ta) by auto. cbn [bind]. destruct (dims_same ds A A i ta ta OA OA EA EA) as (_ & _ & Q3 & _). rewrite Q3, Nat.ltb_irrefl.
    unfold mtouch. rewrite (vset_ok _ (mtypes o)) by lia. cbn [bind]. destruct (vget_ok _ (mtens o) i) as (x & E & _); [lia|]. rewrite E. cbn [bind]. unfold mput. cbn [mtens mtypes mcenter]. rewrite vset_ok by lia. eexists. split; [reflexivity|].
    cbn [mtens mtypes mcenter]. rewrite !upd_length. repeat split; auto.
    + intros j Hj. destruct (Nat.eq_dec j i) as [->|NE]; [rewrite nth_error_upd_same by lia; rewrite nth_error_map, EA; auto|]. rewrite nth_error_upd_other by auto. apply I3. lia.
    + intros j Hj. destruct (Nat.eq_dec j i) as [->|NE]; [apply nth_error_upd_same; lia|]. rewrite nth_error_upd_other by auto. apply I4. lia.
  - rewrite P1. f_equal. cbn [Nat.add] in *. destruct o2 as [tn ty ce]. cbn [mtens mtypes mcenter] in *. f_equal.
    + apply nth_error_ext. intros j. destruct (Nat.lt_ge_cases j N) as [HJ|HJ]; [rewrite P4 by auto; rewrite !nth_error_map; auto|]. rewrite !(proj2 (nth_error_None _ _)); auto; rewrite ?map_length; lia.
    + apply nth_error_ext. intros j. destruct (Nat.lt_ge_cases j N) as [HJ|HJ].
      * rewrite P5 by auto. symmetry. rewrite (nth_error_nth' _ NONE) by (rewrite repeat_length; auto). f_equal. apply nth_repeat.
      * rewrite !(proj2 (nth_error_None _ _)); auto; rewrite ?repeat_length; lia.
    + apply P6. lia.
Qed.
Lemma id_oper ds A : oper_on R ds A -> oper_on R ds (map (id_ten R r0 r1) A).
Proof.
  intros (F & H1 & H2). split; [|rewrite !map_map; auto]. clear. induction A as [|a A IH]; cbn; auto.
Qed.
(** *** trace *)
Lemma trace_loop ts0 : forall A pre n v ds st, ts0 = pre ++ A -> holds4 R st ts0 -> fit4 n A 1 -> map (@m1 R) A = ds -> map (@m2 R) A = ds ->
  exists st' v', for_loop (length pre) (length A) (fun i (x : fmpo R * (nat * (nat -> R))) =>
    let '(st, (n, v)) := x in
    let! st := mtouch R i st in let! t := mderef R st i in
    if negb ((n =? m0 t) && (m1 t =? m2 t)) then Ub else
    Ok (st, (m3 t, fun r => sumn (m1 t) (fun s => sumn (m2 t) (fun s' => sumn n (fun l => v l *r e4 t l s s' r) *r (if s =? s' then r1 else r0)))))) (st, (n, v)) = Ok (st', (1, v')) /\
    mtens st' = mtens st /\ length (mtypes st') = length (mtypes st) /\ (forall j, nth_error (mtypes st') j = if (length pre <=? j) && (j <? length pre + length A) then Some NONE else nth_error (mtypes st) j) /\ (A <> [] -> mcenter st' = (-1)%Z) /\
    v' 0 = sumn n (fun l => v l *r lsum (configs ds) (fun c => o4_mat A c c l 0)).
Proof.
  induction A as [|t A IH]; intros pre n v ds st E [HT HY] F D1 D2.
  - cbn in F, D1. subst. exists st, v. split; [reflexivity|]. split; auto. split; auto. split; [|split; [congruence|cbn; unfold FmpsSpec.delta; cbn; ring]]. intros j. cbn [length]. rewrite Nat.add_0_r. destruct (Nat.leb_spec (length pre) j), (Nat.ltb_spec j (length pre)); auto; lia.
  - cbn in F. destruct F as [<- F]. destruct ds as [|d ds]; [discriminate|]. cbn [map] in D1, D2. injection D1 as D1 D1'. injection D2 as D2 D2'. cbn [length for_loop].
    assert (EN : nth_error ts0 (length pre) = Some t) by (subst ts0; rewrite nth_error_app2, Nat.sub_diag by lia; auto). assert (LP : length pre < length ts0) by (apply nth_error_Some; congruence).
    unfold mtouch at 1. rewrite vset_ok by lia. cbn [bind]. rewrite (vget_nth (mtens st) (length pre) (Some t)) by (rewrite HT, nth_error_map, EN; auto). cbn [bind]. unfold mderef at 1. cbn [mtens]. rewrite (vget_nth (mtens st) (length pre) (Some t)) by (rewrite HT, nth_error_map, EN; auto). cbn [bind].
    rewrite Nat.eqb_refl, D1, D2, Nat.eqb_refl. cbn [andb negb bind].
    destruct (IH (pre ++ [t]) (m3 t) (fun r => sumn d (fun s => sumn d (fun s' => sumn (m0 t) (fun l => v l *r e4 t l s s' r) *r (if s =? s' then r1 else r0)))) ds (mkFmpo (mtens st) (upd (mtypes st) (length pre) NONE) (-1)%Z)) as (st' & v' & G1 & G2 & G3 & G4 & G5 & G6).
    + rewrite <- app_assoc. auto. + split; cbn [mtens mtypes]; [auto|rewrite upd_length; auto]. + auto. + auto. + auto.
    + exists st', v'. rewrite app_length in G1, G4. cbn [length] in G1, G4. rewrite Nat.add_1_r in G1, G4. split; [exact G1|]. cbn [mtens mtypes mcenter] in *. rewrite upd_length in G3. split; auto. split; auto. split; [|split].
      * intros j. rewrite G4, nth_error_upd. destruct (Nat.eqb_spec (length pre) j) as [<-|NE], (Nat.ltb_spec (length pre) (length (mtypes st))); cbn [andb]; try lia.
        -- rewrite Nat.leb_refl. destruct (Nat.leb_spec (S (length pre)) (length pre)); [lia|]. cbn [andb]. destruct (Nat.ltb_spec (length pre) (length pre + S (length A))); [auto|lia].
        -- replace (length pre + S (length A)) with (S (length pre) + length A) by lia. destruct (Nat.leb_spec (S (length pre)) j), (Nat.leb_spec (length pre) j); auto; lia.
      * intros _. destruct A; [|apply G5; discriminate]. clear - G1. cbn in G1. injection G1 as <- _. auto.
      * rewrite G6. clear - Rth.
        transitivity (sumn (m3 t) (fun r => sumn d (fun s => sumn (m0 t) (fun l => v l *r (e4 t l s s r *r lsum (configs ds) (fun c => o4_mat A c c r 0)))))).
        { apply s_ext. intros r _. rewrite s_mulr. apply s_ext. intros s Hs. rewrite (s_one d s); [|auto|intros i _ N; destruct (Nat.eqb_spec s i); [congruence|ring]]. rewrite Nat.eqb_refl.
          rewrite !s_mulr. apply s_ext. intros l _. ring. }
        transitivity (sumn (m0 t) (fun l => sumn d (fun s => sumn (m3 t) (fun r => v l *r (e4 t l s s r *r lsum (configs ds) (fun c => o4_mat A c c r 0)))))).
        { rewrite s_swap. transitivity (sumn d (fun s => sumn (m0 t) (fun l => sumn (m3 t) (fun r => v l *r (e4 t l s s r *r lsum (configs ds) (fun c => o4_mat A c c r 0)))))); [apply s_ext; intros; apply s_swap|apply s_swap]. }
        apply s_ext. intros l _. rewrite cfg_cons, s_mull. apply s_ext. intros s _. cbn [FinMpoSpec.o4_mat]. rewrite l_sumn, s_mull. apply s_ext. intros r _. rewrite l_mull. auto.
Qed.
Lemma mpo_trace_ok st A ds : holds4 R st A -> oper_on R ds A -> 1 <= length ds ->
  mpo_trace R r0 r1 radd rmul st = Ok (o_trace R r0 radd ds (elem R r0 r1 radd rmul A), mkFmpo (mtens st) (repeat NONE (length ds)) (-1)%Z).
Proof.
  intros [HT HY] OA HN. assert (LA := oper_len _ _ OA). destruct OA as (F & D1 & D2). unfold mpo_trace. destruct A as [|t A']; [cbn in LA; lia|]. set (A := t :: A') in *.
  unfold mtouch at 1. rewrite vset_ok by lia. cbn [bind]. rewrite (vget_nth (mtens st) 0 (Some t)) by (rewrite HT; auto). cbn [bind]. unfold mderef at 1. cbn [mtens]. rewrite (vget_nth (mtens st) 0 (Some t)) by (rewrite HT; auto). cbn [bind].
  replace (length (mtens st)) with (length A) by (rewrite HT, map_length; auto). assert (E0 : m0 t = 1) by apply F. rewrite E0.
  destruct (trace_loop A A [] 1 (fun l => if l =? 0 then r1 else r0) ds (mkFmpo (mtens st) (upd (mtypes st) 0 NONE) (-1)%Z) eq_refl) as (st' & v' & G1 & G2 & G3 & G4 & G5 & G6); auto.
  { split; cbn [mtens mtypes]; rewrite ?upd_length; auto. }
  cbn [length] in G1. change (length A) with (S (length A')) in *. rewrite G1. cbn [bind Nat.ltb Nat.leb]. f_equal. f_equal.
  - rewrite G6. cbn [FmpsSpec.sumn Nat.eqb]. unfold o_trace, elem. ring.
  - cbn [mtens mtypes mcenter length] in *. rewrite upd_length in G3. destruct st' as [tn ty ce]. cbn [mtens mtypes mcenter] in *. f_equal; auto; [|apply G5; discriminate].
    apply nth_error_ext. intros j. rewrite G4. cbn [Nat.leb andb Nat.add]. destruct (Nat.ltb_spec j (S (length A'))).
    + symmetry. rewrite (nth_error_nth' _ NONE) by (rewrite repeat_length; lia). f_equal. apply nth_repeat.
    + rewrite !(proj2 (nth_error_None _ _)); auto; rewrite ?repeat_length, ?upd_length; lia.
Qed.
End Facts.
