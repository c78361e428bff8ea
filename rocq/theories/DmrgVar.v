(** One update and whole sweeps never raise the energy of the chain. *)
From Coq Require Import List Arith Bool Lia Reals Lra Ring_theory.
From Verif Require Import Base Disk SweepSpec NoiseSpec DmrgSpec VmpsInitFacts FiniteMps FmpsSpec FmpsFacts EffHam EffHamSpec EffHamFacts ChainSpec ChainFacts Lanczos LanczosSpec KrylovSpec Cx KrylovInst DmrgUpdate DmrgStep DmrgVarSpec.
Import ListNotations.
Local Open Scope nat_scope.

Notation ctwo := (two_site cx c0 cadd cmul). Notation csplits := (splits cx c0 cadd cmul).
(** *** chains as functions *)
Section Sites.
Variable N : nat.
Lemma sites_mid : forall A (f : nat -> A) l, l + 1 < N -> sites N f = sites l f ++ [f l; f (l + 1)] ++ map f (seq (l + 2) (N - (l + 2))).
Proof.
  intros A f l H. unfold sites. replace N with (l + (2 + (N - (l + 2)))) at 1 by lia. rewrite seq_app, map_app. rewrite Nat.add_0_l. f_equal.
  cbn [Nat.add seq map app]. replace (l + 1) with (S l) by lia. replace (S (S l)) with (l + 2) by lia. reflexivity.
Qed.
Lemma sites_set : forall A (f : nat -> A) l a b, l + 1 < N -> sites N (fset (fset f l a) (l + 1) b) = sites l f ++ [a; b] ++ map f (seq (l + 2) (N - (l + 2))).
Proof.
  intros A f l a b H. rewrite (sites_mid A _ l H). unfold fset at 3 4 5. replace (l =? l + 1) with false by (symmetry; apply Nat.eqb_neq; lia). rewrite !Nat.eqb_refl. f_equal.
  - unfold sites. apply map_ext_in. intros i Hi. apply in_seq in Hi. unfold fset. replace (i =? l + 1) with false by (symmetry; apply Nat.eqb_neq; lia). replace (i =? l) with false by (symmetry; apply Nat.eqb_neq; lia). reflexivity.
  - apply (f_equal (fun z => [a; b] ++ z)). apply map_ext_in. intros i Hi. apply in_seq in Hi. unfold fset. replace (i =? l + 1) with false by (symmetry; apply Nat.eqb_neq; lia). replace (i =? l) with false by (symmetry; apply Nat.eqb_neq; lia). reflexivity.
Qed.
Lemma sites_set2 : forall A (f : nat -> A) l p, l + 1 < N -> sites N (set2 A f l p) = sites l f ++ [fst p; snd p] ++ map f (seq (l + 2) (N - (l + 2))).
Proof. intros. apply sites_set. auto. Qed.
End Sites.
Lemma fit_inv : forall R (l1 l2 : list (ten R)) X Y, fit R X (l1 ++ l2) Y -> exists D, fit R X l1 D /\ fit R D l2 Y.
Proof. intros R. induction l1 as [|t l1 IH]; intros l2 X Y H; cbn [app fit] in *; [exists X; auto|]. destruct H as [H1 H2]. destruct (IH _ _ _ H2) as [D [A B]]. exists D. auto. Qed.
Lemma wfit_inv : forall R (l1 l2 : list (mposite R)) X Y, wfit R X (l1 ++ l2) Y -> exists D, wfit R X l1 D /\ wfit R D l2 Y.
Proof. intros R. induction l1 as [|t l1 IH]; intros l2 X Y H; cbn [app wfit] in *; [exists X; auto|]. destruct H as [H1 H2]. destruct (IH _ _ _ H2) as [D [A B]]. exists D. auto. Qed.
Lemma fit_mid : forall R (tl tr : list (ten R)) t1 t2 X Y, fit R X (tl ++ [t1; t2] ++ tr) Y <-> fit R X tl (d0 t1) /\ d2 t1 = d0 t2 /\ fit R (d2 t2) tr Y.
Proof.
  intros R tl tr t1 t2 X Y. split.
  - intros H. destruct (fit_inv _ _ _ _ _ H) as [D [A B]]. cbn [app fit] in B. destruct B as [<- [B C]]. auto.
  - intros [A [B C]]. apply (fit_app R tl ([t1; t2] ++ tr) X (d0 t1) Y); [exact A|]. cbn [app fit]. auto.
Qed.

(** *** the environments of the sweep are the block operators *)
Section Env.
Variable ws : nat -> cmpo.
Notation trivs := (fun s : side => triv_group cx c1).
Notation lops := (left_ops cx c0 cadd cmul cconj). Notation rops := (right_ops cx c0 c1 cadd cmul cconj).
Lemma left_snoc : forall ts wl g t w, length wl = length ts -> lops g (ts ++ [t]) (wl ++ [w]) = (let! h := lops g ts wl in grow_left cx c0 cadd cmul cconj h t w).
Proof.
  induction ts as [|u ts IH]; intros [|v wl] g t w H; try discriminate; cbn [app left_ops bind].
  - destruct (grow_left _ _ _ _ _ g t w); reflexivity.
  - destruct (grow_left cx c0 cadd cmul cconj g u v) as [h| |]; cbn [bind]; try reflexivity. apply IH. cbn in H. lia.
Qed.
Lemma left_env_ops : forall ts l g, lops (triv_group cx c1) (sites l ts) (sites l ws) = Ok g -> left_env cten (list cop) trivs (d_grow ws) ts l = g.
Proof.
  intros ts. induction l as [|l IH]; intros g H; [cbn in H; injection H as <-; reflexivity|].
  unfold sites in H. rewrite seq_S, !map_app in H. cbn [map Nat.add] in H. rewrite left_snoc in H by (rewrite !map_length; reflexivity).
  destruct (lops (triv_group cx c1) (map ts (seq 0 l)) (map ws (seq 0 l))) as [h| |] eqn:E; cbn [bind] in H; try discriminate.
  cbn [left_env]. rewrite (IH h E). unfold d_grow. rewrite H. reflexivity.
Qed.
Lemma right_env_ops : forall N ts k g, k <= N -> rops (map ts (seq (N - k) k)) (map ws (seq (N - k) k)) = Ok g -> right_env cten (list cop) trivs (d_grow ws) N ts k = g.
Proof.
  intros N ts. induction k as [|k IH]; intros g Hk H; [cbn in H; injection H as <-; reflexivity|].
  replace (seq (N - S k) (S k)) with ((N - 1 - k) :: seq (N - k) k) in H by (replace (N - S k) with (N - 1 - k) by lia; cbn [seq]; do 2 f_equal; lia).
  cbn [map right_ops] in H. destruct (rops (map ts (seq (N - k) k)) (map ws (seq (N - k) k))) as [h| |] eqn:E; cbn [bind] in H; try discriminate.
  cbn [right_env]. rewrite (IH h) by (auto; lia). unfold d_grow. rewrite H. reflexivity.
Qed.
End Env.

(** *** sequences of updates that follow the orthogonality center *)
Section Path.
Variable N : nat.
Inductive path : nat -> list (bool * nat) -> nat -> Prop :=
| path_nil : forall l, path l [] l
| path_cons : forall (rt : bool) l l' bs m, l + 1 < N -> (l' = l \/ (if rt then l' = l + 1 else l' + 1 = l)) -> path l' bs m -> path l ((rt, l) :: bs) m.
Lemma path_app : forall bs l m bs' n, path l bs m -> path m bs' n -> path l (bs ++ bs') n.
Proof. induction bs as [|b bs IH]; intros l m bs' n H H'; inversion H; subst; [exact H'|]. cbn [app]. econstructor; eauto. Qed.
Lemma path_firstn : forall bs l m j, path l bs m -> exists m', path l (firstn j bs) m'.
Proof.
  induction bs as [|b bs IH]; intros l m [|j] H; cbn [firstn]; try (exists l; constructor). inversion H; subst. destruct (IH l' m j H6) as [m' P]. exists m'. econstructor; eauto.
Qed.
Lemma path_right : forall n l, l + n < N -> path l (map (fun i => (true, i)) (seq l n)) (l + n).
Proof. induction n as [|n IH]; intros l H; cbn [seq map]; [rewrite Nat.add_0_r; constructor|]. apply path_cons with (l' := l + 1); [lia|auto|]. replace (l + Datatypes.S n) with (l + 1 + n) by lia. replace (Datatypes.S l) with (l + 1) by lia. apply IH. lia. Qed.
Lemma path_left : forall n l, 1 <= l -> l + n < N -> path (l + n - 1) (map (fun i => (false, i - 1)) (rev (seq (l + 1) n))) (l - 1).
Proof.
  induction n as [|n IH]; intros l H1 H2; [cbn; replace (l + 0 - 1) with (l - 1) by lia; constructor|].
  rewrite seq_S, rev_app_distr. cbn [rev app map]. replace (l + 1 + n - 1) with (l + Datatypes.S n - 1) by lia. apply path_cons with (l' := l + n - 1); [lia|right; lia|]. apply IH; lia.
Qed.
Lemma path_bonds : forall lb rb, lb + 2 <= rb -> rb < N -> path lb (bonds lb rb) lb.
Proof.
  intros lb rb H1 H2. unfold bonds. apply path_app with (m := rb - 1).
  - replace (rb - 1) with (lb + (rb - 1 - lb)) at 2 by lia. apply path_right. lia.
  - pose proof (path_left (rb - 1 - lb) (lb + 1)) as P. replace (lb + 1 + (rb - 1 - lb) - 1) with (rb - 1) in P by lia. replace (lb + 1 - 1) with lb in P by lia. replace (lb + 1 + 1) with (lb + 2) in P by lia. apply P; lia.
Qed.
Lemma path_all : forall lb rb n, lb + 2 <= rb -> rb < N -> path lb (all_bonds lb rb n) lb.
Proof. intros lb rb n H1 H2. unfold all_bonds. induction n as [|n IH]; cbn [repeat concat]; [constructor|]. apply path_app with (m := lb); [apply path_bonds; auto|exact IH]. Qed.
Lemma path_split : forall bs bs' l n, path l (bs ++ bs') n -> exists m, path l bs m /\ path m bs' n.
Proof. induction bs as [|b bs IH]; intros bs' l n H; [exists l; split; [constructor|exact H]|]. inversion H; subst. destruct (IH _ _ _ H6) as [m [A B]]. exists m. split; [econstructor; eauto|exact B]. Qed.
End Path.

Section Var.
Variable N : nat.
Variable ws : nat -> cmpo.
Variable ds : list nat.
Variables (stev : list real -> list real -> list real * list real) (close : real -> real -> bool) (maxit : nat) (size : nat -> nat -> nat -> nat -> nat).
Variable split : bool -> nat -> nat -> nat -> nat -> cten4 -> cten * cten.
Hypothesis PM : proper_mpo N ws ds.
Hypothesis ES : exact_split cx c0 c1 cadd cmul cconj split.
Hypothesis Hmax : 2 <= maxit.
Notation trivs := (fun s : side => triv_group cx c1).
Notation upd := (d_update ws stev close maxit size split).
Notation lenv := (left_env cten (list cop) trivs (d_grow ws)). Notation renv := (right_env cten (list cop) trivs (d_grow ws) N).
Notation opt := (opt cten (list cop) (res real) trivs (d_grow ws) upd N). Notation opts := (opts cten (list cop) (res real) trivs (d_grow ws) upd N).
Notation sweeps_spec := (sweeps_spec cten (list cop) (res real) trivs (d_grow ws) upd N).
Notation on_sites := (on_sites N ds). Notation energy_of := (energy_of N ws). Notation nonzero := (nonzero N). Notation expect := (expect N ws).
Notation lapack_at := (lapack_at ws stev close maxit size). Notation lapack_along := (lapack_along N ws stev close maxit size split).
Notation W := (sites N ws). Notation S ts := (sites N ts).

(** the parts of the chain around a bond *)
Lemma cut_at : forall ts l, on_sites ts -> l + 1 < N ->
  cut cx (sites l ts) (map ts (seq (l + 2) (N - (l + 2)))) (sites l ws) (ws l) (ws (l + 1)) (map ws (seq (l + 2) (N - (l + 2)))) (d0 (ts l)) (d2 (ts (l + 1))) /\ d2 (ts l) = d0 (ts (l + 1)).
Proof.
  intros ts l [HF _] Hl. rewrite (sites_mid N _ _ _ Hl) in HF. apply fit_mid in HF. destruct HF as [F1 [F2 F3]]. split; [|exact F2].
  pose proof (pm_fit _ _ _ PM) as HW. rewrite (sites_mid N _ _ _ Hl) in HW. destruct (wfit_inv _ _ _ _ _ HW) as [M [W1 W2]]. cbn [app wfit] in W2. destruct W2 as [<- [W2 W3]].
  split; auto.
  - unfold sites. rewrite !map_length, !seq_length. auto.
  - split; apply Forall_forall; intros w Iw.
    + apply in_app_or in Iw. destruct Iw as [Iw|[<-|[]]]; [|apply (pm_cols _ _ _ PM)]. apply in_map_iff in Iw. destruct Iw as [i [<- _]]. apply (pm_cols _ _ _ PM).
    + destruct Iw as [<-|Iw]; [apply (pm_rows _ _ _ PM)|]. apply in_map_iff in Iw. destruct Iw as [i [<- _]]. apply (pm_rows _ _ _ PM).
  - apply (pm_pos _ _ _ PM). exact Hl.
Qed.
Lemma sites_bases : forall ts l, on_sites ts -> l + 1 < N -> cmixed N ts l ->
  left_basis cx c0 c1 cadd cmul cconj (sites l ts) (d0 (ts l)) /\ right_basis cx c0 c1 cadd cmul cconj (map ts (seq (l + 2) (N - (l + 2)))) (d2 (ts (l + 1))).
Proof.
  intros ts l HO Hl [ML MR]. destruct (cut_at ts l HO Hl) as [HC _]. split.
  - apply (left_basis_ok cx c0 c1 cadd cmul csub copp cx_ring cconj cconj0 cconj1 cconj_add cconj_mul); [apply (cut_l _ _ _ _ _ _ _ _ _ HC)|]. apply Forall_forall. intros t It. apply in_map_iff in It. destruct It as [i [<- Ii]]. apply in_seq in Ii. apply ML. lia.
  - apply (right_basis_ok cx c0 c1 cadd cmul csub copp cx_ring cconj cconj0 cconj1 cconj_add cconj_mul); [apply (cut_r _ _ _ _ _ _ _ _ _ HC)|]. apply Forall_forall. intros t It. apply in_map_iff in It. destruct It as [i [<- Ii]]. apply in_seq in Ii. apply MR. lia.
Qed.
(** exchanging two neighbours for a pair with the same outer legs *)
Lemma set_on : forall ts l a b g, on_sites ts -> l + 1 < N -> csplits (d0 (ts l)) (d1 (ts l)) (d1 (ts (l + 1))) (d2 (ts (l + 1))) g a b -> on_sites (fset (fset ts l a) (l + 1) b).
Proof.
  intros ts l a b g [HF HD] Hl HE. unfold DmrgVarSpec.on_sites. rewrite (sites_set N _ _ _ _ _ Hl). rewrite (sites_mid N _ _ _ Hl) in HF, HD. apply fit_mid in HF. destruct HF as [F1 [F2 F3]]. split.
  - apply fit_mid. rewrite (fa_0 _ _ _ _ _ _ _ _ _ _ _ HE), (fa_3 _ _ _ _ _ _ _ _ _ _ _ HE). split; [exact F1|]. split; [apply (fa_m _ _ _ _ _ _ _ _ _ _ _ HE)|exact F3].
  - rewrite <- HD, !map_app. cbn [map]. rewrite (fa_1 _ _ _ _ _ _ _ _ _ _ _ HE), (fa_2 _ _ _ _ _ _ _ _ _ _ _ HE). reflexivity.
Qed.
Lemma set_mixed : forall ts l a b rt l', l + 1 < N -> cmixed N ts l -> (if rt : bool then cleft a else cright b) -> (l' = l \/ (if rt then l' = l + 1 else l' + 1 = l)) ->
  cmixed N (fset (fset ts l a) (l + 1) b) l'.
Proof.
  intros ts l a b rt l' Hl [ML MR] HC HL'.
  assert (O : forall j, j <> l -> j <> l + 1 -> fset (fset ts l a) (l + 1) b j = ts j).
  { intros j H1 H2. unfold fset. replace (j =? l + 1) with false by (symmetry; apply Nat.eqb_neq; auto). replace (j =? l) with false by (symmetry; apply Nat.eqb_neq; auto). reflexivity. }
  assert (A : fset (fset ts l a) (l + 1) b l = a) by (unfold fset; replace (l =? l + 1) with false by (symmetry; apply Nat.eqb_neq; lia); rewrite Nat.eqb_refl; reflexivity).
  assert (B : fset (fset ts l a) (l + 1) b (l + 1) = b) by (unfold fset; rewrite Nat.eqb_refl; reflexivity).
  split; intros i Hi.
  - destruct (Nat.eq_dec i l) as [->|]; [|rewrite O by (destruct rt; lia); apply ML; destruct rt; lia]. rewrite A. destruct rt; [exact HC|lia].
  - destruct (Nat.eq_dec i (l + 1)) as [->|]; [|rewrite O by (destruct rt; lia); apply MR; destruct rt; lia]. rewrite B. destruct rt; [lia|exact HC].
Qed.

(** *** one update *)
Lemma update_ok : forall rt l ts, l + 1 < N -> on_sites ts -> cmixed N ts l -> nonzero ts -> lapack_at l (lenv ts l) (renv ts (N - (l + 2))) (ts l) (ts (l + 1)) ->
  exists a b e, upd rt l (lenv ts l) (ts l) (ts (l + 1)) (renv ts (N - (l + 2))) = (a, b, Ok e) /\
  let ts' := fset (fset ts l a) (l + 1) b in
  on_sites ts' /\ (if rt then cleft a else cright b) /\ energy_of ts' e /\ (e * fst (cnorm2 (S ts)) <= fst (cenergy (S ts) W))%R.
Proof.
  intros rt l ts Hl HO HM HZ HLA. destruct (cut_at ts l HO Hl) as [HC H12]. destruct (sites_bases ts l HO Hl HM) as [LB RB].
  set (tl := sites l ts) in *. set (tr := map ts (seq (l + 2) (N - (l + 2)))) in *. set (wl := sites l ws) in *. set (wr := map ws (seq (l + 2) (N - (l + 2)))) in *.
  set (t1 := ts l) in *. set (t2 := ts (l + 1)) in *.
  destruct (eff_ham_ok cx c0 c1 cadd cmul csub copp cx_ring cconj cconj0 cconj1 cconj_add cconj_mul tl tr wl (ws l) (ws (l + 1)) wr _ _ HC) as [gl [gr [GL [GR GM]]]].
  rewrite (left_env_ops ws ts l gl GL) in *.
  assert (RE : renv ts (N - (l + 2)) = gr) by (apply right_env_ops; [lia|]; replace (N - (N - (l + 2))) with (l + 2) by lia; exact GR).
  rewrite RE in *. clear RE.
  set (D0 := d0 t1) in *. set (p1 := d1 t1) in *. set (p2 := d1 t2) in *. set (D3 := d2 t2) in *.
  unfold DmrgVarSpec.lapack_at in HLA. fold D0 p1 p2 D3 in HLA. cbv zeta in HLA.
  set (mul := fun x => match d_mul ws l gl gr t1 t2 x with Ok y => y | _ => x end) in *.
  assert (MUL : forall x a s1 s2 b, a < D0 -> s1 < p1 -> s2 < p2 -> b < D3 -> mul x a s1 s2 b = projected cx c0 c1 cadd cmul cconj tl tr wl (ws l) (ws (l + 1)) wr D0 p1 p2 D3 x a s1 s2 b).
  { intros x a s1 s2 b Ha _ _ Hb. unfold mul, d_mul. fold D0 p1 p2 D3. destruct (GM p1 p2 x) as [y [z [Y [_ E]]]]. rewrite Y. destruct (E a s1 s2 b Ha Hb) as [E1 _]. exact E1. }
  assert (WS : W = wl ++ [ws l; ws (l + 1)] ++ wr) by (apply sites_mid; exact Hl).
  assert (HMUL : forall x y, v_ip D0 p1 p2 D3 (mul x) y = v_ip D0 p1 p2 D3 x (mul y)).
  { intros x y. rewrite (ip_ext _ _ _ _ _ _ y (MUL x)). rewrite <- (ip_conj _ _ _ _ (mul y) x), (ip_ext _ _ _ _ _ _ x (MUL y)). rewrite !ip_dot4.
    apply (projected_hermitian cx c0 c1 cadd cmul csub copp cx_ring cconj cconj0 cconj_add cconj_mul cconj_conj). rewrite <- WS.
    replace (map (@d1 cx) tl ++ [p1; p2] ++ map (@d1 cx) tr) with ds; [apply (pm_herm _ _ _ PM)|]. destruct HO as [_ HD]. rewrite <- HD, (sites_mid N _ _ _ Hl), !map_app. reflexivity. }
  assert (TS : S ts = tl ++ [t1; t2] ++ tr) by (apply sites_mid; exact Hl).
  pose proof (splits_self cx c0 cadd cmul t1 t2 H12) as SS. fold D0 p1 p2 D3 in SS.
  assert (NV : v_ip D0 p1 p2 D3 (d_init t1 t2) (d_init t1 t2) = cnorm2 (S ts)).
  { rewrite ip_dot4, TS. symmetry. apply (norm2_splits cx c0 c1 cadd cmul csub copp cx_ring cconj cconj0 cconj_add cconj_mul); auto. apply (cut_l _ _ _ _ _ _ _ _ _ HC). }
  assert (EV : v_ip D0 p1 p2 D3 (mul (d_init t1 t2)) (d_init t1 t2) = cenergy (S ts) W).
  { rewrite (ip_ext _ _ _ _ _ _ _ (MUL (d_init t1 t2))), ip_dot4, TS, WS. symmetry. apply (energy_splits cx c0 c1 cadd cmul csub copp cx_ring cconj cconj0 cconj_add cconj_mul); [apply (cut_l _ _ _ _ _ _ _ _ _ HC)|exact SS]. }
  destruct (lanczos_ok D0 p1 p2 D3 mul HMUL stev close maxit (size D0 p1 p2 D3) Hmax (d_init t1 t2)) as [r [g [RUN [G1 [G2 G3]]]]].
  { rewrite NV. exact HZ. }
  { intros r g E. exact (HLA r g E). }
  pose proof (ES rt D0 p1 p2 D3 g) as SP. destruct (split rt D0 p1 p2 D3 g) as [a b] eqn:ESP. destruct SP as [SP CA].
  exists a, b, (eng real r). split.
  - unfold d_update. rewrite H12, Nat.eqb_refl. cbn [negb]. unfold d_mul at 1. fold D0 p1 p2 D3. destruct (GM p1 p2 (d_init t1 t2)) as [y [z [Y _]]]. rewrite Y. fold mul. rewrite RUN, ESP. reflexivity.
  - cbv zeta. split; [exact (set_on ts l a b g HO Hl SP)|]. split; [exact CA|].
    assert (TS' : S (fset (fset ts l a) (l + 1) b) = tl ++ [a; b] ++ tr) by (apply sites_set; exact Hl).
    split.
    + unfold DmrgVarSpec.energy_of, normalized. rewrite TS'. split.
      * rewrite (norm2_splits cx c0 c1 cadd cmul csub copp cx_ring cconj cconj0 cconj_add cconj_mul tl tr a b g D0 p1 p2 D3 (cut_l _ _ _ _ _ _ _ _ _ HC) SP LB RB). rewrite <- ip_dot4. exact G1.
      * rewrite WS, (energy_splits cx c0 c1 cadd cmul csub copp cx_ring cconj cconj0 cconj_add cconj_mul tl tr wl (ws l) (ws (l + 1)) wr a b g D0 p1 p2 D3 (cut_l _ _ _ _ _ _ _ _ _ HC) SP).
        rewrite <- ip_dot4, <- G2. symmetry. apply ip_ext. apply MUL.
    + rewrite EV in G3. unfold v_dot in G3. rewrite NV in G3. exact G3.
Qed.
Lemma norm_real : forall ts, exists x, cnorm2 (S ts) = cre x /\ (0 <= x)%R.
Proof.
  intros ts. unfold norm2. generalize (configs (map (@d1 cx) (S ts))). intros l. induction l as [|c l [x [E P]]]; [exists 0%R; split; [reflexivity|lra]|].
  cbn [EffHamSpec.lsum fold_right]. set (z := mps_mat cx c0 c1 cadd cmul (S ts) c 0 0) in *. exists (fst z * fst z + snd z * snd z + x)%R.
  change (fold_right _ _ l) with (EffHamSpec.lsum cx c0 cadd l (fun c => cmul (cconj (mps_mat cx c0 c1 cadd cmul (S ts) c 0 0)) (mps_mat cx c0 c1 cadd cmul (S ts) c 0 0))). rewrite E. split.
  - destruct z as [a b]. unfold cadd, cmul, cconj, cre. cbn [fst snd]. f_equal; ring.
  - pose proof (Rle_0_sqr (fst z)) as A. pose proof (Rle_0_sqr (snd z)) as B. unfold Rsqr in *. lra.
Qed.
Lemma normalized_nz : forall ts, normalized N ts -> nonzero ts.
Proof. intros ts H. unfold DmrgVarSpec.nonzero. rewrite H. unfold c0, c1. intros E. injection E as E. lra. Qed.
Lemma energy_expect : forall ts e, energy_of ts e -> expect ts = e.
Proof. intros ts e [H1 H2]. unfold DmrgVarSpec.expect. rewrite H1, H2. unfold c1, cre. cbn [fst]. field. Qed.
Lemma below_expect : forall ts e, nonzero ts -> (e * fst (cnorm2 (S ts)) <= fst (cenergy (S ts) W))%R -> (e <= expect ts)%R.
Proof.
  intros ts e HZ H. unfold DmrgVarSpec.expect. destruct (norm_real ts) as [x [E P]]. unfold DmrgVarSpec.nonzero in HZ. rewrite E in *. cbn [fst cre] in *.
  assert (0 < x)%R. { destruct P as [P|P]; [exact P|]. subst x. exfalso. apply HZ. reflexivity. }
  apply Rmult_le_reg_r with x; [assumption|]. unfold Rdiv. rewrite Rmult_assoc, Rinv_l by lra. lra.
Qed.

Lemma sweeps_all : forall lb rb n s, sweeps_spec lb rb n s = opts (all_bonds lb rb n) s.
Proof. intros lb rb n. induction n as [|n IH]; intros s; [reflexivity|]. cbn [SweepSpec.sweeps_spec]. rewrite IH. unfold all_bonds. cbn [repeat concat]. unfold SweepSpec.opts. rewrite fold_left_app. reflexivity. Qed.

Lemma opts_ok : forall bs l m ts e, path N l bs m -> on_sites ts -> cmixed N ts l -> nonzero ts -> lapack_along bs (ts, e) ->
  let s := opts bs (ts, e) in on_sites (fst s) /\ cmixed N (fst s) m /\ nonzero (fst s) /\
  (bs <> [] -> exists x, snd s = Some (Ok x) /\ energy_of (fst s) x) /\ (expect (fst s) <= expect ts)%R.
Proof.
  induction bs as [|[rt l0] bs IH]; intros l m ts e HP HO HM HZ HLA; cbv zeta.
  - inversion HP; subst. cbn. split; [auto|]. split; [auto|]. split; [auto|]. split; [congruence|lra].
  - assert (l0 = l) by (inversion HP; auto). subst l0. assert (HP' : l + 1 < N /\ exists l', (l' = l \/ (if rt then l' = l + 1 else l' + 1 = l)) /\ path N l' bs m) by (inversion HP; subst; eauto). clear HP. destruct HP' as [H3 [l' [H4 H5]]].
    destruct HLA as [HA HLA]. cbn [fst snd] in HA.
    destruct (update_ok rt l ts H3 HO HM HZ HA) as [a [b [x [U [O1 [C1 [E1 L1]]]]]]].
    assert (OP : opt (rt, l) (ts, e) = (fset (fset ts l a) (l + 1) b, Some (Ok x))) by (unfold SweepSpec.opt; rewrite U; reflexivity).
    rewrite OP in HLA. cbn [SweepSpec.opts fold_left]. change (fold_left (fun (s : (nat -> cten) * option (res real)) (b0 : bool * nat) => opt b0 s) bs (opt (rt, l) (ts, e))) with (opts bs (opt (rt, l) (ts, e))). rewrite OP.
    set (ts' := fset (fset ts l a) (l + 1) b) in *.
    destruct (IH l' m ts' (Some (Ok x)) H5 O1) as [A1 [A2 [A3 [A4 A5]]]]; auto.
    { apply set_mixed with (rt := rt); auto. }
    { apply normalized_nz. apply E1. }
    split; [exact A1|]. split; [exact A2|]. split; [exact A3|]. split.
    + intros _. destruct bs as [|b0 bs]; [|apply A4; discriminate]. cbn. exists x. auto.
    + apply Rle_trans with (expect ts'); [exact A5|]. rewrite (energy_expect ts' x E1). apply below_expect; auto.
Qed.
Lemma lapack_app : forall bs bs' s, lapack_along (bs ++ bs') s <-> lapack_along bs s /\ lapack_along bs' (opts bs s).
Proof.
  induction bs as [|b bs IH]; intros bs' s; cbn [app DmrgVarSpec.lapack_along]; [cbn; tauto|]. rewrite IH. cbn [SweepSpec.opts fold_left]. change (fold_left (fun (s : (nat -> cten) * option (res real)) (b0 : bool * nat) => opt b0 s) bs (opt b s)) with (opts bs (opt b s)). tauto.
Qed.
(** every reported energy belongs to the chain at that moment; later ones are not above earlier ones, nor above the initial expectation value *)
Lemma energies_ok : forall bs l m ts e, path N l bs m -> on_sites ts -> cmixed N ts l -> nonzero ts -> lapack_along bs (ts, e) ->
  forall i j, i <= j -> j <= length bs ->
  let si := opts (firstn i bs) (ts, e) in let sj := opts (firstn j bs) (ts, e) in
  (1 <= j -> exists x, snd sj = Some (Ok x) /\ energy_of (fst sj) x) /\ (expect (fst sj) <= expect (fst si))%R.
Proof.
  intros bs l m ts e HP HO HM HZ HLA i j Hij Hj. cbv zeta.
  rewrite <- (firstn_skipn j bs) in HP, HLA. destruct (path_split _ _ _ _ _ HP) as [mj [Pj _]]. apply lapack_app in HLA. destruct HLA as [Lj _].
  assert (E : firstn j bs = firstn i bs ++ firstn (j - i) (skipn i bs)). { replace j with (i + (j - i)) at 1 by lia. clear. generalize (j - i). intros k. revert bs. induction i as [|i IH]; intros [|b bs]; cbn [Nat.add firstn skipn app]; rewrite ?firstn_nil; auto. f_equal. apply IH. }
  split.
  - intros H1. destruct (opts_ok _ _ _ ts e Pj HO HM HZ Lj) as [_ [_ [_ [A _]]]]. apply A. intros C. apply (f_equal (@length _)) in C. rewrite firstn_length in C. cbn in C. lia.
  - rewrite E in Pj, Lj. destruct (path_split _ _ _ _ _ Pj) as [mi [Pi Pr]]. apply lapack_app in Lj. destruct Lj as [Li Lr].
    destruct (opts_ok _ _ _ ts e Pi HO HM HZ Li) as [B1 [B2 [B3 _]]]. rewrite E. unfold SweepSpec.opts at 1. rewrite fold_left_app. change (fold_left (fun (s : (nat -> cten) * option (res real)) (b : bool * nat) => opt b s) (firstn i bs) (ts, e)) with (opts (firstn i bs) (ts, e)).
    destruct (opts (firstn i bs) (ts, e)) as [ti ei]. cbn [fst] in *. destruct (opts_ok _ _ _ ti ei Pr B1 B2 B3 Lr) as [_ [_ [_ [_ C]]]]. exact C.
Qed.
End Var.
