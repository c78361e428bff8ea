(** Facts about the exchanges of Gather.v. *)
From Coq Require Import List Arith Lia Bool Permutation.
From Verif Require Import Mpi MpiStar FarmSpec Farm FarmFacts Farm2 Farm2Facts Gather.
Import ListNotations.

Lemma sync_inv_gen : forall L V (prog : nat -> L -> act L V) P g g', sync L V prog P g g' ->
  exists p d t v l so to k, p < P /\ d < P /\ p <> d /\ prog p (g p) = ASend d t v l /\ prog d (g d) = ARecv so to k /\ fits so p = true /\ fits to t = true /\ g' = setl (setl g p l) d (k p t v).
Proof. intros L V prog P g g' H. inversion H as [p d t v l so to k H1 H2 H3 H4 H5 H6 H7]; subst. exists p, d, t, v, l, so, to, k. repeat (split; [assumption|]). reflexivity. Qed.
Lemma sync_step_gen : forall L V (prog : nat -> L -> act L V) P g p d t v l so to k, p < P -> d < P -> p <> d -> prog p (g p) = ASend d t v l -> prog d (g d) = ARecv so to k -> fits so p = true -> fits to t = true -> exists g', sync L V prog P g g'.
Proof. intros L V prog P g p d t v l so to k H1 H2 H3 H4 H5 H6 H7. eexists. exact (Syn L V prog P g p d t v l so to k H1 H2 H3 H4 H5 H6 H7). Qed.

(** ** Static multiplication *)
Section StaticFacts.
Variables X R : Type.
Variables (r0 : R) (radd : R -> R -> R).
Hypothesis radd_comm : forall x y, radd x y = radd y x.
Hypothesis radd_assoc : forall x y z, radd x (radd y z) = radd (radd x y) z.
Hypothesis radd_0 : forall x, radd r0 x = x.
Variables (W : nat) (sub : nat -> X) (ov : nat -> R).
Notation locs := (locs X R). Notation sval := (sval X R).
Notation prog := (sprog X R r0 radd W). Notation ssum := (ssum X R r0 W). Notation sovl := (sovl X R W). Notation sinit := (sinit X R r0 W sub ov).
Notation sync := (sync locs sval prog (S W)).
Notation rsum := (rsum R r0 radd).
Definition ma (w : nat) : nat * sval := (tag_sum, STen (sub w)).
Definition mb (w : nat) : nat * sval := (tag_ovl, SNum (ov w)).
(** what worker w still has to send *)
Definition tosum (l : locs) : list unit := match l with SOut (_ :: _ :: _) => [tt] | _ => [] end.
Definition toovl (l : locs) : list unit := match l with SOut (_ :: _) => [tt] | _ => [] end.
(** u w: the sum (phase 1) or the overlap (phase 2) of worker w has not been received *)
Inductive GS (g : nat -> locs) : Prop :=
  | GSSum : forall i xs u, g 0 = SSum i xs -> i < W -> (forall w, 1 <= w -> w <= W -> g w = if (u w : bool) then SOut [ma w; mb w] else SOut [mb w]) ->
      Permutation (xs ++ flat_map (fun w => if u w then [sub w] else []) (seq 1 W)) (map sub (seq 1 W)) -> length xs = i -> GS g
  | GSOvl : forall i xs acc u, g 0 = SOvl i xs acc -> i < W -> (forall w, 1 <= w -> w <= W -> g w = if (u w : bool) then SOut [mb w] else SOut []) ->
      Permutation xs (map sub (seq 1 W)) -> radd acc (rsum (map ov (filter u (seq 1 W)))) = rsum (map ov (seq 1 W)) -> length (filter u (seq 1 W)) = W - i -> GS g
  | GSDone : forall xs acc, g 0 = SDone xs acc -> (forall w, 1 <= w -> w <= W -> g w = SOut []) -> Permutation xs (map sub (seq 1 W)) -> acc = rsum (map ov (seq 1 W)) -> GS g.
Lemma sprog_w : forall p l, p <> 0 -> prog p l = match l with SOut (m :: ms) => ASend 0 (fst m) (snd m) (SOut ms) | _ => AHalt end.
Proof. intros p l H. unfold sprog. destruct (Nat.eqb_spec p 0); [lia|auto]. Qed.
Definition off (u : nat -> bool) (p : nat) : nat -> bool := fun w => if w =? p then false else u w.
Lemma off_perm : forall u p, 1 <= p <= W -> u p = true -> Permutation (filter u (seq 1 W)) (p :: filter (off u p) (seq 1 W)).
Proof.
  intros u p Hp Hu. destruct (workers_split W p Hp) as [l1 [l2 [S [N1 N2]]]]. rewrite S, !filter_app. cbn [filter]. rewrite Hu.
  assert (E : off u p p = false) by (unfold off; rewrite Nat.eqb_refl; auto). rewrite E.
  assert (F : forall l, ~ In p l -> filter (off u p) l = filter u l).
  { induction l as [|x l IH]; intros N; cbn [filter]; auto. unfold off at 1. destruct (Nat.eqb_spec x p); [subst; exfalso; apply N; left; auto|]. rewrite IH by (intros I; apply N; right; auto). auto. }
  rewrite !F by auto. apply Permutation_sym, Permutation_middle.
Qed.
Lemma off_flat : forall A (k : nat -> A) u p, 1 <= p <= W -> u p = true ->
  Permutation (flat_map (fun w => if u w then [k w] else []) (seq 1 W)) (k p :: flat_map (fun w => if off u p w then [k w] else []) (seq 1 W)).
Proof.
  intros A k u p Hp Hu. assert (F : forall v l, flat_map (fun w => if (v w : bool) then [k w] else []) l = map k (filter v l)).
  { intros v l. induction l as [|x l IH]; cbn; auto. destruct (v x); cbn; rewrite IH; auto. }
  rewrite !F. rewrite (off_perm u p Hp Hu). auto.
Qed.
Lemma filter_all : forall (u : nat -> bool) l, (forall x, In x l -> u x = true) -> filter u l = l.
Proof. induction l as [|x l IH]; intros H; cbn; auto. rewrite H by (left; auto). f_equal. apply IH. intros; apply H; right; auto. Qed.
Lemma filter_nil : forall (u : nat -> bool) l, filter u l = [] -> forall x, In x l -> u x = false.
Proof. intros u l H x I. destruct (u x) eqn:E; auto. assert (J : In x (filter u l)) by (apply filter_In; auto). rewrite H in J. destruct J. Qed.
Lemma tag_neq : tag_sum <> tag_ovl. Proof. unfold tag_sum, tag_ovl. lia. Qed.
Lemma GS_init : GS sinit.
Proof.
  assert (I : forall w, 1 <= w -> sinit w = SOut [ma w; mb w]) by (intros w Hw; unfold Gather.sinit; destruct (Nat.eqb_spec w 0); [lia|auto]).
  assert (E0 : sinit 0 = ssum 0 []) by reflexivity. unfold Gather.ssum in E0. destruct (Nat.ltb_spec 0 W) as [Hw|Hw].
  - apply (GSSum _ 0 [] (fun _ => true)); auto.
  - unfold Gather.sovl in E0. destruct (Nat.ltb_spec 0 W); [lia|]. apply (GSDone _ [] r0); auto; [intros; lia| |]; replace W with 0 by lia; auto.
Qed.
Lemma GS_sync : forall g g', GS g -> sync g g' -> GS g'.
Proof.
  intros g g' HG HS. destruct (sync_inv_gen _ _ _ _ g g' HS) as [p [d [t [v [l [so [to [k [Hp [Hd [N [E1 [E2 [F1 [F2 ->]]]]]]]]]]]]]]]. clear HS.
  assert (Hp0 : p <> 0).
  { intros ->. destruct HG as [i xs u E0 Hi Hg HP HL|i xs acc u E0 Hi Hg HP HA HL|xs acc E0 Hg HP HA]; rewrite E0 in E1; discriminate. }
  rewrite sprog_w in E1 by auto. assert (d = 0).
  { destruct (g p) as [| | |ms|]; try discriminate. destruct ms; inversion E1. auto. } subst d.
  assert (GE : forall x y, setl (setl g p x) 0 y 0 = y) by (intros; apply setl_eq).
  assert (GP : forall x y, setl (setl g p x) 0 y p = x) by (intros; rewrite setl_ne by auto; apply setl_eq).
  assert (GO : forall x y w, w <> p -> w <> 0 -> setl (setl g p x) 0 y w = g w) by (intros; rewrite !setl_ne by auto; auto).
  destruct HG as [i xs u E0 Hi Hg HP HL|i xs acc u E0 Hi Hg HP HA HL|xs acc E0 Hg HP HA].
  - rewrite E0 in E2. cbv beta iota delta [sprog Nat.eqb] in E2. inversion E2; subst so to k. clear E2 F1.
    pose proof (Hg p ltac:(lia) ltac:(lia)) as Q. destruct (u p) eqn:Hu; rewrite Q in E1; cbn [fst snd ma mb] in E1; inversion E1; subst t v l; clear E1.
    2:{ exfalso. cbn [fits] in F2. apply Nat.eqb_eq in F2. apply tag_neq. auto. }
    cbv beta iota. pose proof (off_flat _ sub u p ltac:(lia) Hu) as PF. rewrite PF in HP.
    set (g1 := setl (setl g p (SOut [mb p])) 0 (ssum (i + 1) (xs ++ [sub p]))).
    assert (G0 : g1 0 = ssum (i + 1) (xs ++ [sub p])) by apply GE.
    assert (Gw : forall w, 1 <= w -> w <= W -> g1 w = if off u p w then SOut [ma w; mb w] else SOut [mb w]).
    { intros w W1 W2. unfold off. destruct (Nat.eqb_spec w p) as [->|Nw]; [apply GP|]. unfold g1. rewrite GO by lia. apply Hg; auto. }
    assert (HP' : Permutation ((xs ++ [sub p]) ++ flat_map (fun w => if off u p w then [sub w] else []) (seq 1 W)) (map sub (seq 1 W))) by (rewrite <- app_assoc; exact HP).
    unfold Gather.ssum in G0. destruct (Nat.ltb_spec (i + 1) W) as [Hw|Hw].
    + apply (GSSum g1 (i + 1) (xs ++ [sub p]) (off u p)); auto. rewrite app_length. cbn. lia.
    + assert (Z : flat_map (fun w => if off u p w then [sub w] else []) (seq 1 W) = []).
      { apply Permutation_length in HP'. rewrite !app_length, map_length, seq_length in HP'. cbn in HP'. apply length_zero_iff_nil. lia. }
      rewrite Z, app_nil_r in HP'.
      assert (Zu : forall w, 1 <= w -> w <= W -> off u p w = false).
      { intros w W1 W2. destruct (off u p w) eqn:E; auto. exfalso. assert (I : In (sub w) (flat_map (fun w => if off u p w then [sub w] else []) (seq 1 W))) by (apply in_flat_map; exists w; split; [apply in_seq; lia|rewrite E; left; auto]). rewrite Z in I. destruct I. }
      unfold Gather.sovl in G0. destruct (Nat.ltb_spec 0 W) as [Hw0|Hw0]; [|lia].
      apply (GSOvl g1 0 (xs ++ [sub p]) r0 (fun _ => true)); auto.
      * intros w W1 W2. rewrite Gw, Zu by auto. auto.
      * rewrite radd_0, filter_all by auto. auto.
      * rewrite filter_all, seq_length by auto. lia.
  - rewrite E0 in E2. cbv beta iota delta [sprog Nat.eqb] in E2. inversion E2; subst so to k. clear E2 F1.
    pose proof (Hg p ltac:(lia) ltac:(lia)) as Q. destruct (u p) eqn:Hu; rewrite Q in E1; [|discriminate]. cbn [fst snd ma mb] in E1; inversion E1; subst t v l; clear E1. cbv beta iota.
    pose proof (off_perm u p ltac:(lia) Hu) as PF.
    set (g1 := setl (setl g p (SOut [])) 0 (sovl (i + 1) xs (radd acc (ov p)))).
    assert (G0 : g1 0 = sovl (i + 1) xs (radd acc (ov p))) by apply GE.
    assert (Gw : forall w, 1 <= w -> w <= W -> g1 w = if off u p w then SOut [mb w] else SOut []).
    { intros w W1 W2. unfold off. destruct (Nat.eqb_spec w p) as [->|Nw]; [apply GP|]. unfold g1. rewrite GO by lia. apply Hg; auto. }
    assert (HA' : radd (radd acc (ov p)) (rsum (map ov (filter (off u p) (seq 1 W)))) = rsum (map ov (seq 1 W))).
    { rewrite <- HA. rewrite (rsum_perm R r0 radd radd_comm radd_assoc _ _ (Permutation_map ov PF)). cbn. rewrite radd_assoc. auto. }
    assert (HL' : length (filter (off u p) (seq 1 W)) = W - (i + 1)) by (apply Permutation_length in PF; cbn in PF; lia).
    unfold Gather.sovl in G0. destruct (Nat.ltb_spec (i + 1) W) as [Hw|Hw].
    + apply (GSOvl g1 (i + 1) xs (radd acc (ov p)) (off u p)); auto.
    + assert (Z : filter (off u p) (seq 1 W) = []) by (apply length_zero_iff_nil; lia).
      apply (GSDone g1 xs (radd acc (ov p))); auto.
      * intros w W1 W2. rewrite Gw by auto. rewrite (filter_nil _ _ Z) by (apply in_seq; lia). auto.
      * rewrite <- HA', Z. cbn. rewrite (radd_comm _ r0), radd_0. auto.
  - rewrite E0 in E2. discriminate.
Qed.
Lemma owed_out : forall p l ms l', p <> 0 -> owed locs sval prog p (SOut l) ms l' -> exists r, l = ms ++ r.
Proof.
  intros p l ms. revert l. induction ms as [|[t v] ms IH]; intros l l' Hp H; [exists l; auto|]. cbn [owed] in H. rewrite sprog_w in H by auto. destruct l as [|[t1 v1] l]; [destruct H|].
  cbn in H. destruct H as [-> [-> H]]. destruct (IH _ _ Hp H) as [r ->]. exists r. auto.
Qed.
Lemma shape_s : worker_shape locs sval prog W.
Proof. intros w l H1 H2. rewrite sprog_w by lia. destruct l as [| | |ms|]; auto. destruct ms; auto. Qed.
Lemma GS_safe : forall g, GS g -> safe locs sval prog W g.
Proof.
  intros g HG. split.
  - intros d t v l E. destruct HG as [i xs u E0 Hi Hg HP HL|i xs acc u E0 Hi Hg HP HA HL|xs acc E0 Hg HP HA]; rewrite E0 in E; discriminate.
  - intros so to k E w ms l' m r H1 H2 F O K. destruct HG as [i xs u E0 Hi Hg HP HL|i xs acc u E0 Hi Hg HP HA HL|xs acc E0 Hg HP HA]; rewrite E0 in E; try discriminate;
      cbv beta iota delta [sprog Nat.eqb] in E; inversion E; subst so to k; clear E; rewrite Hg in O by lia.
    + pose proof tag_neq as TN. destruct (u w); destruct (owed_out w _ ms l' ltac:(lia) O) as [r' E].
      * destruct ms as [|m1 ms]; [discriminate|]. inversion E; subst. cbn [take fits fst ma] in K. rewrite Nat.eqb_refl in K. inversion K. auto.
      * destruct ms as [|m1 ms]; [discriminate|]. inversion E as [[E1 E2]]; subst. destruct ms; [|discriminate]. cbn [take fits fst mb] in K. destruct (Nat.eqb_spec tag_sum tag_ovl); [lia|discriminate].
    + destruct (u w); destruct (owed_out w _ ms l' ltac:(lia) O) as [r' E].
      * destruct ms as [|m1 ms]; [discriminate|]. inversion E as [[E1 E2]]; subst. cbn [take fits fst mb] in K. rewrite Nat.eqb_refl in K. inversion K. auto.
      * destruct ms; [discriminate|discriminate].
Qed.
Lemma GS_prog : forall g, GS g -> (exists g', sync g g') \/ forall p, p < S W -> prog p (g p) = AHalt.
Proof.
  intros g HG. destruct HG as [i xs u E0 Hi Hg HP HL|i xs acc u E0 Hi Hg HP HA HL|xs acc E0 Hg HP HA].
  - left. assert (Q : exists w, 1 <= w <= W /\ u w = true).
    { destruct (filter u (seq 1 W)) as [|w ws] eqn:E.
      - exfalso. apply Permutation_length in HP. rewrite app_length, map_length, seq_length in HP.
        assert (Z : flat_map (fun w => if u w then [sub w] else []) (seq 1 W) = []); [|rewrite Z in HP; cbn in HP; lia].
        rewrite flat_map_concat_map, (map_ext_in _ (fun _ => [])) by (intros w Hw; rewrite (filter_nil _ _ E) by auto; auto). rewrite <- flat_map_concat_map. apply flat_none.
      - exists w. assert (I : In w (filter u (seq 1 W))) by (rewrite E; left; auto). apply filter_In in I. destruct I as [I J]. apply in_seq in I. split; [lia|auto]. }
    destruct Q as [w [Hw Hu]]. eapply (sync_step_gen _ _ _ _ g w 0); [lia|lia|lia|rewrite sprog_w, Hg, Hu by lia; reflexivity|rewrite E0; reflexivity|auto|apply Nat.eqb_refl].
  - left. destruct (filter u (seq 1 W)) as [|w ws] eqn:E; [cbn in HL; lia|]. assert (I : In w (filter u (seq 1 W))) by (rewrite E; left; auto). apply filter_In in I. destruct I as [I J]. apply in_seq in I.
    eapply (sync_step_gen _ _ _ _ g w 0); [lia|lia|lia|rewrite sprog_w, Hg, J by lia; reflexivity|rewrite E0; reflexivity|auto|apply Nat.eqb_refl].
  - right. intros p Hp. destruct (Nat.eq_dec p 0) as [->|]; [rewrite E0; auto|]. rewrite sprog_w, Hg by lia. auto.
Qed.
Definition mus (g : nat -> locs) : nat := match g 0 with SSum i _ => 2 * W - i | SOvl i _ _ => W - i | _ => 0 end.
Lemma mus_dec : forall g g', GS g -> sync g g' -> mus g' < mus g.
Proof.
  intros g g' HG HS. destruct (sync_inv_gen _ _ _ _ g g' HS) as [p [d [t [v [l [so [to [k [Hp [Hd [N [E1 [E2 [F1 [F2 ->]]]]]]]]]]]]]]]. clear HS.
  assert (Hp0 : p <> 0).
  { intros ->. destruct HG as [i xs u E0 Hi Hg HP HL|i xs acc u E0 Hi Hg HP HA HL|xs acc E0 Hg HP HA]; rewrite E0 in E1; discriminate. }
  rewrite sprog_w in E1 by auto. assert (d = 0) by (destruct (g p) as [| | |ms|]; try discriminate; destruct ms; inversion E1; auto). subst d.
  unfold mus at 1. rewrite setl_eq. unfold mus.
  destruct HG as [i xs u E0 Hi Hg HP HL|i xs acc u E0 Hi Hg HP HA HL|xs acc E0 Hg HP HA]; rewrite E0 in E2; try discriminate; cbv beta iota delta [sprog Nat.eqb] in E2; inversion E2; subst so to k; rewrite E0; destruct v; cbv beta iota; try lia.
  - unfold Gather.ssum. destruct (Nat.ltb_spec (i + 1) W); [lia|]. unfold Gather.sovl. destruct (0 <? W); lia.
  - unfold Gather.sovl. destruct (Nat.ltb_spec (i + 1) W); lia.
Qed.
Definition owes (w : nat) (l : locs) : nat := match l with SOut ms => length ms | _ => 0 end.
Lemma owes_send : forall w l d t v l', 1 <= w -> w < S W -> prog w l = ASend d t v l' -> owes w l = S (owes w l').
Proof. intros w l d t v l' H1 H2 E. rewrite sprog_w in E by lia. destruct l as [| | |ms|]; try discriminate. destruct ms; inversion E; auto. Qed.
Lemma owes_max : forall g w, GS g -> 1 <= w -> w < S W -> owes w (g w) <= 2.
Proof. intros g w HG H1 H2. destruct HG as [i xs u E0 Hi Hg HP HL|i xs acc u E0 Hi Hg HP HA HL|xs acc E0 Hg HP HA]; rewrite Hg by lia; try destruct (u w); cbn; lia. Qed.
Lemma static_completes : completes prog (S W) sinit (10 * W) (fun l => exists xs, l 0 = SDone xs (rsum (map ov (seq 1 W))) /\ Permutation xs (map sub (seq 1 W)) /\ forall w, 1 <= w <= W -> l w = SOut []).
Proof.
  intros n s H. pose proof GS_init as HG. split; [|split].
  - pose proof (bounded locs sval prog W shape_s GS GS_sync GS_safe mus mus_dec owes owes_send 2 owes_max n sinit s HG H) as Q.
    assert (M : mus sinit <= 2 * W); [|lia]. unfold mus, Gather.sinit. rewrite Nat.eqb_refl. unfold Gather.ssum, Gather.sovl. destruct (0 <? W); lia.
  - exact (no_deadlock locs sval prog W shape_s GS GS_sync GS_safe GS_prog n sinit s HG H).
  - intros F. destruct (steps_abs locs sval prog W shape_s GS GS_sync GS_safe n sinit s HG H) as [g [HGg HA]].
    assert (Q : forall p, p < S W -> loc s p = g p) by (apply final_abs with (prog := prog) (W := W) (G := GS); auto).
    destruct F as [F _]. pose proof (F 0 ltac:(lia)) as F0. rewrite Q in F0 by lia.
    destruct HGg as [i xs u E0 Hi Hg HP HL|i xs acc u E0 Hi Hg HP HA' HL|xs acc E0 Hg HP HA']; rewrite E0 in F0; try discriminate.
    exists xs. split; [rewrite Q by lia; rewrite E0; congruence|]. split; [auto|]. intros w Hw. rewrite Q by lia. apply Hg; lia.
Qed.
End StaticFacts.

(** ** Collecting the grown operators *)
Section GrowFacts.
Variable X : Type.
Variables (W M : nat) (op : nat -> X) (table : nat -> list nat).
Hypothesis tables : Permutation (flat_map table (seq 1 W)) (seq 0 M).
Notation lock := (lock X). Notation gval := (gval X).
Notation prog := (kprog X M). Notation kround := (kround X M). Notation kinit := (kinit X M op table). Notation kstream := (kstream X op).
Notation sync := (sync lock gval prog (S W)).
Definition goodk (rs : list (nat * X)) : Prop := forall m, In m rs -> snd m = op (fst m).
Inductive GK (g : nat -> lock) : Prop :=
  | GKOrd : forall i rs tb, g 0 = KOrd i rs -> i < M -> (forall w, 1 <= w -> w <= W -> g w = KOut (kstream w (tb w))) ->
      Permutation (map fst rs ++ flat_map tb (seq 1 W)) (seq 0 M) -> goodk rs -> length rs = i -> GK g
  | GKTen : forall i rs tb w o, g 0 = KTen i rs w o -> i < M -> 1 <= w -> w <= W -> g w = KOut ((w, GTen (op o)) :: kstream w (tb w)) -> (forall w', 1 <= w' -> w' <= W -> w' <> w -> g w' = KOut (kstream w' (tb w'))) ->
      Permutation (map fst rs ++ o :: flat_map tb (seq 1 W)) (seq 0 M) -> goodk rs -> length rs = i -> GK g
  | GKDone : forall rs, g 0 = KDone rs -> (forall w, 1 <= w -> w <= W -> g w = KOut []) -> Permutation (map fst rs) (seq 0 M) -> goodk rs -> GK g.
Lemma kprog_w : forall p l, p <> 0 -> prog p l = match l with KOut (m :: ms) => ASend 0 (fst m) (snd m) (KOut ms) | _ => AHalt end.
Proof. intros p l H. unfold kprog. destruct (Nat.eqb_spec p 0); [lia|auto]. Qed.
Definition putl (tb : nat -> list nat) (p : nat) (r : list nat) : nat -> list nat := fun w => if w =? p then r else tb w.
Lemma putl_perm : forall tb p o r, 1 <= p <= W -> tb p = o :: r -> Permutation (flat_map tb (seq 1 W)) (o :: flat_map (putl tb p r) (seq 1 W)).
Proof.
  intros tb p o r Hp E. destruct (flat_change nat W tb (putl tb p r) p Hp) as [q [P1 P2]]; [intros w' N; unfold putl; destruct (Nat.eqb_spec w' p); [lia|auto]|].
  unfold putl at 2 in P2. rewrite Nat.eqb_refl in P2. rewrite P1, P2, E. auto.
Qed.
Lemma flat_nil_inv : forall (tb : nat -> list nat) l, flat_map tb l = [] -> forall w, In w l -> tb w = [].
Proof. induction l as [|x l IH]; intros H w I; [destruct I|]. cbn in H. apply app_eq_nil in H. destruct H as [H1 H2]. destruct I as [<-|I]; auto. Qed.
Lemma GK_round : forall g i rs tb, g 0 = kround i rs -> (forall w, 1 <= w -> w <= W -> g w = KOut (kstream w (tb w))) -> Permutation (map fst rs ++ flat_map tb (seq 1 W)) (seq 0 M) -> goodk rs -> length rs = i -> GK g.
Proof.
  intros g i rs tb E0 Hg HP HG HL. unfold Gather.kround in E0. destruct (Nat.ltb_spec i M).
  - eapply GKOrd; eauto.
  - assert (Z : flat_map tb (seq 1 W) = []) by (apply length_zero_iff_nil; apply Permutation_length in HP; rewrite app_length, map_length, seq_length in HP; lia).
    rewrite Z, app_nil_r in HP. apply (GKDone g rs); auto. intros w W1 W2. rewrite Hg by auto. rewrite (flat_nil_inv tb _ Z) by (apply in_seq; lia). auto.
Qed.
Lemma GK_init : GK kinit.
Proof.
  apply (GK_round kinit 0 [] table); auto; [|intros m []].
  intros w W1 W2. unfold Gather.kinit. destruct (Nat.eqb_spec w 0); [lia|auto].
Qed.
Lemma GK_sync : forall g g', GK g -> sync g g' -> GK g'.
Proof.
  intros g g' HG HS. destruct (sync_inv_gen _ _ _ _ g g' HS) as [p [d [t [v [l [so [to [k [Hp [Hd [N [E1 [E2 [F1 [F2 ->]]]]]]]]]]]]]]]. clear HS.
  assert (Hp0 : p <> 0).
  { intros ->. destruct HG as [i rs tb E0 Hi Hg HP HGd HL|i rs tb w o E0 Hi Hw1 Hw2 Ew Hg HP HGd HL|rs E0 Hg HP HGd]; rewrite E0 in E1; discriminate. }
  rewrite kprog_w in E1 by auto. assert (d = 0) by (destruct (g p) as [| | |ms|]; try discriminate; destruct ms; inversion E1; auto). subst d.
  assert (GE : forall x y, setl (setl g p x) 0 y 0 = y) by (intros; apply setl_eq).
  assert (GP : forall x y, setl (setl g p x) 0 y p = x) by (intros; rewrite setl_ne by auto; apply setl_eq).
  assert (GO : forall x y w, w <> p -> w <> 0 -> setl (setl g p x) 0 y w = g w) by (intros; rewrite !setl_ne by auto; auto).
  destruct HG as [i rs tb E0 Hi Hg HP HGd HL|i rs tb w o E0 Hi Hw1 Hw2 Ew Hg HP HGd HL|rs E0 Hg HP HGd].
  - rewrite E0 in E2. cbv beta iota delta [kprog Nat.eqb] in E2. inversion E2; subst so to k. clear E2 F1 F2.
    rewrite Hg in E1 by lia. destruct (tb p) as [|o r] eqn:Et; [discriminate|]. cbn [Gather.kstream flat_map app fst snd] in E1. inversion E1; subst t v l. clear E1. cbv beta iota.
    assert (Ho : o < M).
    { assert (I : In o (seq 0 M)) by (eapply Permutation_in; [exact HP|apply in_or_app; right; apply in_flat_map; exists p; split; [apply in_seq; lia|rewrite Et; left; auto]]). apply in_seq in I. lia. }
    destruct (Nat.ltb_spec o M); [|lia].
    eapply (GKTen _ i rs (putl tb p r) p o); [apply GE|auto|lia|lia| | | |auto|auto].
    + rewrite GP. f_equal. f_equal. unfold putl. rewrite Nat.eqb_refl. auto.
    + intros w' W1 W2 W3. rewrite GO by lia. unfold putl. destruct (Nat.eqb_spec w' p); [lia|]. apply Hg; auto.
    + rewrite (putl_perm tb p o r) in HP by (auto; lia). exact HP.
  - rewrite E0 in E2. cbv beta iota delta [kprog Nat.eqb] in E2. inversion E2; subst so to k. clear E2 F2. cbn [fits] in F1. apply Nat.eqb_eq in F1. subst w.
    rewrite Ew in E1. inversion E1; subst t v l. clear E1. cbn [snd fst].
    eapply (GK_round _ (i + 1) (rs ++ [(o, op o)]) tb); [apply GE| | | |].
    + intros w' W1 W2. destruct (Nat.eq_dec w' p) as [->|Nw]; [apply GP|]. rewrite GO by lia. apply Hg; auto.
    + rewrite map_app. cbn. rewrite <- app_assoc. exact HP.
    + intros m Hm. apply in_app_or in Hm. destruct Hm as [Hm|[<-|[]]]; auto.
    + rewrite app_length. cbn. lia.
  - rewrite E0 in E2. discriminate.
Qed.
Lemma owed_out_k : forall p l ms l', p <> 0 -> owed lock gval prog p (KOut l) ms l' -> exists r, l = ms ++ r.
Proof.
  intros p l ms. revert l. induction ms as [|[t v] ms IH]; intros l l' Hp H; [exists l; auto|]. cbn [owed] in H. rewrite kprog_w in H by auto. destruct l as [|[t1 v1] l]; [destruct H|].
  cbn in H. destruct H as [-> [-> H]]. destruct (IH _ _ Hp H) as [r ->]. exists r. auto.
Qed.
Lemma shape_k : worker_shape lock gval prog W.
Proof. intros w l H1 H2. rewrite kprog_w by lia. destruct l as [| | |ms|]; auto. destruct ms; auto. Qed.
Lemma GK_safe : forall g, GK g -> safe lock gval prog W g.
Proof.
  intros g HG. split.
  - intros d t v l E. destruct HG as [i rs tb E0 Hi Hg HP HGd HL|i rs tb w o E0 Hi Hw1 Hw2 Ew Hg HP HGd HL|rs E0 Hg HP HGd]; rewrite E0 in E; discriminate.
  - intros so to k E w0 ms l' m r H1 H2 F O K. destruct HG as [i rs tb E0 Hi Hg HP HGd HL|i rs tb w o E0 Hi Hw1 Hw2 Ew Hg HP HGd HL|rs E0 Hg HP HGd]; rewrite E0 in E; try discriminate;
      cbv beta iota delta [kprog Nat.eqb] in E; inversion E; subst so to k; clear E.
    + destruct ms; cbn in K; [discriminate|]. inversion K; subst. auto.
    + cbn [fits] in F. apply Nat.eqb_eq in F. subst w0. rewrite Ew in O. destruct (owed_out_k w _ ms l' ltac:(lia) O) as [r' E]. destruct ms as [|m1 ms]; [discriminate|]. inversion E; subst m1.
      cbn [take fits fst] in K. rewrite Nat.eqb_refl in K. inversion K. auto.
Qed.
Lemma GK_prog : forall g, GK g -> (exists g', sync g g') \/ forall p, p < S W -> prog p (g p) = AHalt.
Proof.
  intros g HG. destruct HG as [i rs tb E0 Hi Hg HP HGd HL|i rs tb w o E0 Hi Hw1 Hw2 Ew Hg HP HGd HL|rs E0 Hg HP HGd].
  - left. assert (Q : exists w, 1 <= w <= W /\ tb w <> []).
    { destruct (flat_map tb (seq 1 W)) as [|o os] eqn:E; [apply Permutation_length in HP; rewrite app_nil_r, map_length, seq_length in HP; lia|].
      assert (I : In o (flat_map tb (seq 1 W))) by (rewrite E; left; auto). apply in_flat_map in I. destruct I as [w [I J]]. apply in_seq in I. exists w. split; [lia|]. intros Z. rewrite Z in J. destruct J. }
    destruct Q as [w [Hw Ht]]. destruct (tb w) as [|o r] eqn:Et; [congruence|].
    eapply (sync_step_gen _ _ _ _ g w 0); [lia|lia|lia|rewrite kprog_w, Hg, Et by lia; reflexivity|rewrite E0; reflexivity|auto|auto].
  - left. eapply (sync_step_gen _ _ _ _ g w 0); [lia|lia|lia|rewrite kprog_w, Ew by lia; reflexivity|rewrite E0; reflexivity|apply Nat.eqb_refl|apply Nat.eqb_refl].
  - right. intros p Hp. destruct (Nat.eq_dec p 0) as [->|]; [rewrite E0; auto|]. rewrite kprog_w, Hg by lia. auto.
Qed.
Definition muk (g : nat -> lock) : nat := match g 0 with KOrd i _ => 2 * (M - i) | KTen i _ _ _ => 2 * (M - i) - 1 | _ => 0 end.
Lemma muk_dec : forall g g', GK g -> sync g g' -> muk g' < muk g.
Proof.
  intros g g' HG HS. destruct (sync_inv_gen _ _ _ _ g g' HS) as [p [d [t [v [l [so [to [k [Hp [Hd [N [E1 [E2 [F1 [F2 ->]]]]]]]]]]]]]]]. clear HS.
  assert (Hp0 : p <> 0).
  { intros ->. destruct HG as [i rs tb E0 Hi Hg HP HGd HL|i rs tb w o E0 Hi Hw1 Hw2 Ew Hg HP HGd HL|rs E0 Hg HP HGd]; rewrite E0 in E1; discriminate. }
  rewrite kprog_w in E1 by auto. assert (d = 0) by (destruct (g p) as [| | |ms|]; try discriminate; destruct ms; inversion E1; auto). subst d.
  unfold muk at 1. rewrite setl_eq. unfold muk.
  destruct HG as [i rs tb E0 Hi Hg HP HGd HL|i rs tb w o E0 Hi Hw1 Hw2 Ew Hg HP HGd HL|rs E0 Hg HP HGd]; rewrite E0 in E2; try discriminate; cbv beta iota delta [kprog Nat.eqb] in E2; inversion E2; subst so to k; rewrite E0; destruct v; cbv beta iota; try lia.
  - destruct (n <? M); lia.
  - unfold Gather.kround. destruct (Nat.ltb_spec (i + 1) M); lia.
Qed.
Definition owek (w : nat) (l : lock) : nat := match l with KOut ms => length ms | _ => 0 end.
Lemma owek_send : forall w l d t v l', 1 <= w -> w < S W -> prog w l = ASend d t v l' -> owek w l = S (owek w l').
Proof. intros w l d t v l' H1 H2 E. rewrite kprog_w in E by lia. destruct l as [| | |ms|]; try discriminate. destruct ms; inversion E; auto. Qed.
Lemma kstream_len : forall w ts, length (kstream w ts) = 2 * length ts.
Proof. intros w ts. induction ts as [|t ts IH]; auto. unfold Gather.kstream in *. cbn [flat_map app length]. rewrite IH. lia. Qed.
Lemma tb_len : forall (tb : nat -> list nat) w, 1 <= w -> w <= W -> length (tb w) <= length (flat_map tb (seq 1 W)).
Proof.
  intros tb w H1 H2. destruct (workers_split W w (conj H1 H2)) as [l1 [l2 [S _]]]. rewrite S, flat_map_app. cbn. rewrite !app_length. lia.
Qed.
Lemma owek_max : forall g w, GK g -> 1 <= w -> w < S W -> owek w (g w) <= 2 * M.
Proof.
  intros g w HG H1 H2. destruct HG as [i rs tb E0 Hi Hg HP HGd HL|i rs tb w' o E0 Hi Hw1 Hw2 Ew Hg HP HGd HL|rs E0 Hg HP HGd].
  - apply Permutation_length in HP. rewrite app_length, map_length, seq_length in HP. rewrite Hg by lia. cbn. rewrite kstream_len. pose proof (tb_len tb w H1 ltac:(lia)). lia.
  - apply Permutation_length in HP. rewrite app_length, map_length, seq_length in HP. cbn in HP. pose proof (tb_len tb w H1 ltac:(lia)). destruct (Nat.eq_dec w w') as [->|Nw].
    + rewrite Ew. cbn [owek length]. rewrite kstream_len. lia.
    + rewrite Hg by lia. cbn [owek]. rewrite kstream_len. lia.
  - rewrite Hg by lia. cbn. lia.
Qed.
Lemma grow_completes : completes prog (S W) kinit ((2 * M + 2) * (2 * M) + W * (2 * M)) (fun l => exists rs, l 0 = KDone rs /\ once M op rs /\ forall w, 1 <= w <= W -> l w = KOut []).
Proof.
  intros n s H. pose proof GK_init as HG. split; [|split].
  - pose proof (bounded lock gval prog W shape_k GK GK_sync GK_safe muk muk_dec owek owek_send (2 * M) owek_max n kinit s HG H) as Q.
    assert (Mu : muk kinit <= 2 * M); [|nia]. unfold muk, Gather.kinit. rewrite Nat.eqb_refl. unfold Gather.kround. destruct (0 <? M); lia.
  - exact (no_deadlock lock gval prog W shape_k GK GK_sync GK_safe GK_prog n kinit s HG H).
  - intros F. destruct (steps_abs lock gval prog W shape_k GK GK_sync GK_safe n kinit s HG H) as [g [HGg HA]].
    assert (Q : forall p, p < S W -> loc s p = g p) by (apply final_abs with (prog := prog) (W := W) (G := GK); auto).
    destruct F as [F _]. pose proof (F 0 ltac:(lia)) as F0. rewrite Q in F0 by lia.
    destruct HGg as [i rs tb E0 Hi Hg HP HGd HL|i rs tb w o E0 Hi Hw1 Hw2 Ew Hg HP HGd HL|rs E0 Hg HP HGd]; rewrite E0 in F0; try discriminate.
    exists rs. split; [rewrite Q by lia; auto|]. split; [|intros w Hw; rewrite Q by lia; apply Hg; lia].
    unfold once. apply (Permutation_map (fun t => (t, op t))) in HP. rewrite map_map in HP. rewrite <- HP. apply Permutation_refl'. rewrite <- (map_id rs) at 1. apply map_ext_in. intros [t x] Hm. pose proof (HGd _ Hm) as Q1. cbn in Q1. cbn. rewrite Q1. auto.
Qed.
End GrowFacts.

(** ** Not more operators than workers *)
Section FewFacts.
Variable X : Type.
Variables (W T : nat) (msgs : nat -> nat -> list (nat * gval X)) (h : list (gval X) -> X) (ng : nat).
Hypothesis HT : T <= W.
Notation loci := (loci X). Notation gval := (gval X).
Variable vals : nat -> list gval.
Hypothesis H_vals : forall w t, map snd (msgs w t) = vals t.
Hypothesis H_ne : forall w t, msgs w t <> [].
Hypothesis H_want : forall w t p1 m p2, msgs w t = p1 ++ m :: p2 -> want ng w (map snd p1) = Some (fst m).
Hypothesis H_end : forall w t, want ng w (vals t) = None.
Notation prog := (iprog X T msgs h ng). Notation irecv := (irecv X T). Notation istr := (istr X T msgs). Notation iinit := (iinit X T msgs).
Notation sync := (sync loci gval prog (S W)).
Definition res_of (w : nat) : X := h (vals (w - 1)).
Definition rlist (i : nat) : list (nat * X) := map (fun t => (t, h (vals t))) (seq 0 i).
Inductive GI (g : nat -> loci) : Prop :=
  | GIStr : forall i p1 ms, g 0 = IStr i ms -> i < T -> ms <> [] -> msgs (i + 1) i = p1 ++ ms -> g (i + 1) = JGet (map snd p1) ->
      (forall w, 1 <= w -> w <= i -> g w = JRes (res_of w)) -> (forall w, i + 1 < w -> w <= T -> g w = JGet []) -> (forall w, T < w -> w <= W -> g w = JDone) -> GI g
  | GIRecv : forall i, g 0 = IRecv i (rlist i) -> i < T -> (forall w, 1 <= w -> w <= i -> g w = JDone) -> (forall w, i < w -> w <= T -> g w = JRes (res_of w)) -> (forall w, T < w -> w <= W -> g w = JDone) -> GI g
  | GIDone : g 0 = IDone (rlist T) -> (forall w, 1 <= w -> w <= W -> g w = JDone) -> GI g.
Lemma iprog_w : forall p l, p <> 0 -> prog p l = match l with
    | JGet got => match want ng p got with
        | Some tag => ARecv (Some 0) (Some tag) (fun _ _ v => match want ng p (got ++ [v]) with Some _ => JGet (got ++ [v]) | None => JRes (h (got ++ [v])) end)
        | None => AHalt
        end
    | JRes x => ASend 0 (p - 1) (GTen x) JDone
    | _ => AHalt
    end.
Proof. intros p l H. unfold iprog. destruct (Nat.eqb_spec p 0); [lia|auto]. Qed.
Lemma GI_recv : forall g i, g 0 = irecv i (rlist i) -> i <= T -> (forall w, 1 <= w -> w <= i -> g w = JDone) -> (forall w, i < w -> w <= T -> g w = JRes (res_of w)) -> (forall w, T < w -> w <= W -> g w = JDone) -> GI g.
Proof.
  intros g i E0 Hi H1 H2 H3. unfold Gather.irecv in E0. destruct (Nat.ltb_spec i T); [eapply GIRecv; eauto|].
  assert (i = T) by lia. subst i. apply GIDone; auto. intros w W1 W2. destruct (le_lt_dec w T); auto.
Qed.
Lemma GI_str : forall g i, g 0 = istr i -> i <= T -> (forall w, 1 <= w -> w <= i -> g w = JRes (res_of w)) -> (forall w, i < w -> w <= T -> g w = JGet []) -> (forall w, T < w -> w <= W -> g w = JDone) -> GI g.
Proof.
  intros g i E0 Hi H1 H2 H3. unfold Gather.istr in E0. destruct (Nat.ltb_spec i T).
  - apply (GIStr g i [] (msgs (i + 1) i)); auto.
    + apply H2; lia. + intros w W1 W2. apply H2; lia.
  - assert (i = T) by lia. subst i. apply (GI_recv g 0); [exact E0|lia|intros; lia| |exact H3]. intros w W1 W2. apply H1; lia.
Qed.
Lemma GI_init : GI iinit.
Proof.
  assert (I : forall w, 1 <= w -> iinit w = if w <=? T then JGet [] else JDone) by (intros w Hw; unfold Gather.iinit; destruct (Nat.eqb_spec w 0); [lia|auto]).
  apply (GI_str iinit 0); [reflexivity|lia|intros; lia| |].
  - intros w W1 W2. rewrite I by lia. destruct (Nat.leb_spec w T); [auto|lia].
  - intros w W1 W2. rewrite I by lia. destruct (Nat.leb_spec w T); [lia|auto].
Qed.
Lemma worker_sends_i : forall p l d t v l', p <> 0 -> prog p l = ASend d t v l' -> exists x, l = JRes x /\ d = 0 /\ t = p - 1 /\ v = GTen x /\ l' = JDone.
Proof. intros p l d t v l' H E. rewrite iprog_w in E by auto. destruct l as [i ms|i rs|rs|got|x| |]; try discriminate; try (destruct (want ng p got); discriminate). inversion E. exists x. auto. Qed.
Lemma GI_sync : forall g g', GI g -> sync g g' -> GI g'.
Proof.
  intros g g' HG HS. destruct (sync_inv_gen _ _ _ _ g g' HS) as [p [d [t [v [l [so [to [k [Hp [Hd [N [E1 [E2 [F1 [F2 ->]]]]]]]]]]]]]]]. clear HS.
  assert (GE : forall x y, setl (setl g p x) d y d = y) by (intros; apply setl_eq).
  assert (GP : forall x y, setl (setl g p x) d y p = x) by (intros; rewrite setl_ne by auto; apply setl_eq).
  assert (GO : forall x y w, w <> p -> w <> d -> setl (setl g p x) d y w = g w) by (intros; rewrite !setl_ne by auto; auto).
  destruct HG as [i p1 ms E0 Hi Hms Hm Ew H1 H2 H3|i E0 Hi H1 H2 H3|E0 H1].
  - destruct (Nat.eq_dec p 0) as [->|Hp0].
    2:{ exfalso. destruct (worker_sends_i _ _ _ _ _ _ Hp0 E1) as [x [_ [-> _]]]. rewrite E0 in E2. cbv beta iota delta [iprog Nat.eqb] in E2. destruct ms; discriminate. }
    rewrite E0 in E1. destruct ms as [|m ms]; [congruence|]. cbv beta iota delta [iprog Nat.eqb] in E1. inversion E1; subst d t v l. clear E1.
    rewrite iprog_w, Ew, (H_want _ _ _ _ _ Hm) in E2 by lia. inversion E2; subst so to k. clear E2 F1 F2. cbv beta iota.
    assert (Hm' : msgs (i + 1) i = (p1 ++ [m]) ++ ms) by (rewrite <- app_assoc; auto).
    replace (map snd p1 ++ [snd m]) with (map snd (p1 ++ [m])) by (rewrite map_app; auto).
    destruct ms as [|m2 ms].
    + rewrite app_nil_r in Hm'. rewrite <- Hm', H_vals, H_end.
      apply (GI_str _ (i + 1)); [apply GP|lia| | |].
      * intros w W1 W2. destruct (Nat.eq_dec w (i + 1)) as [->|Nw]; [rewrite GE; unfold res_of; do 3 f_equal; lia|]. rewrite GO by lia. apply H1; lia.
      * intros w W1 W2. rewrite GO by lia. apply H2; lia.
      * intros w W1 W2. rewrite GO by lia. apply H3; lia.
    + pose proof (H_want _ _ _ _ _ Hm') as Q. rewrite Q.
      apply (GIStr _ i (p1 ++ [m]) (m2 :: ms)); [apply GP|auto|discriminate|auto|apply GE| | |].
      * intros w W1 W2. rewrite GO by lia. apply H1; lia.
      * intros w W1 W2. rewrite GO by lia. apply H2; lia.
      * intros w W1 W2. rewrite GO by lia. apply H3; lia.
  - destruct (Nat.eq_dec p 0) as [->|Hp0]; [rewrite E0 in E1; discriminate|].
    destruct (worker_sends_i _ _ _ _ _ _ Hp0 E1) as [x [Ex [-> [-> [-> ->]]]]]. rewrite E0 in E2. cbv beta iota delta [iprog Nat.eqb] in E2. inversion E2; subst so to k. clear E2 F2.
    cbn [fits] in F1. apply Nat.eqb_eq in F1. subst p. rewrite (H2 (i + 1)) in Ex by lia. inversion Ex; subst x. cbv beta iota.
    assert (RL : rlist i ++ [(i, res_of (i + 1))] = rlist (i + 1)).
    { unfold rlist, res_of. replace (i + 1) with (S i) by lia. rewrite seq_S, map_app. cbn [map Nat.add]. do 4 f_equal. f_equal. lia. }
    rewrite RL. apply (GI_recv _ (i + 1)); [apply GE|lia| | |].
    + intros w W1 W2. destruct (Nat.eq_dec w (i + 1)) as [->|Nw]; [apply GP|]. rewrite GO by lia. apply H1; lia.
    + intros w W1 W2. rewrite GO by lia. apply H2; lia.
    + intros w W1 W2. rewrite GO by lia. apply H3; lia.
  - exfalso. destruct (Nat.eq_dec p 0) as [->|Hp0]; [rewrite E0 in E1; discriminate|]. rewrite iprog_w, H1 in E1 by lia. discriminate.
Qed.
Lemma shape_i : worker_shape loci gval prog W.
Proof. intros w l H1 H2. rewrite iprog_w by lia. destruct l; auto. destruct (want ng w got); auto. split; [auto|discriminate]. Qed.
Lemma GI_safe : forall g, GI g -> safe loci gval prog W g.
Proof.
  intros g HG. split.
  - intros d t v l E. destruct HG as [i p1 ms E0 Hi Hms Hm Ew H1 H2 H3|i E0 Hi H1 H2 H3|E0 H1]; rewrite E0 in E; try discriminate.
    destruct ms as [|m ms]; [congruence|]. cbv beta iota delta [iprog Nat.eqb] in E. inversion E; subst d t v l. split; [lia|]. split; [lia|]. rewrite iprog_w, Ew, (H_want _ _ _ _ _ Hm) by lia. eexists. reflexivity.
  - intros so to k E w ms0 l' m r K1 K2 F O K. destruct HG as [i p1 ms E0 Hi Hms Hm Ew H1 H2 H3|i E0 Hi H1 H2 H3|E0 H1]; rewrite E0 in E; try discriminate.
    + cbv beta iota delta [iprog Nat.eqb] in E. destruct ms; discriminate.
    + cbv beta iota delta [iprog Nat.eqb] in E. inversion E; subst so to k. clear E. cbn [fits] in F. apply Nat.eqb_eq in F. subst w. rewrite H2 in O by lia.
      destruct ms0 as [|[t1 v1] ms]; [discriminate|]. cbn [owed] in O. rewrite iprog_w in O by lia. destruct O as [<- [<- O]].
      destruct ms as [|[t2 v2] ms]; [|cbn [owed] in O; rewrite iprog_w in O by lia; destruct O]. cbn [take fits fst] in K. replace (i + 1 - 1) with i in * by lia. rewrite Nat.eqb_refl in K. inversion K. auto.
Qed.
Lemma GI_prog : forall g, GI g -> (exists g', sync g g') \/ forall p, p < S W -> prog p (g p) = AHalt.
Proof.
  intros g HG. destruct HG as [i p1 ms E0 Hi Hms Hm Ew H1 H2 H3|i E0 Hi H1 H2 H3|E0 H1].
  - left. destruct ms as [|m ms]; [congruence|].
    eapply (sync_step_gen _ _ _ _ g 0 (i + 1)); [lia|lia|lia|rewrite E0; reflexivity|rewrite iprog_w, Ew, (H_want _ _ _ _ _ Hm) by lia; reflexivity|auto|apply Nat.eqb_refl].
  - left. eapply (sync_step_gen _ _ _ _ g (i + 1) 0); [lia|lia|lia|rewrite iprog_w, H2 by lia; reflexivity|rewrite E0; reflexivity|apply Nat.eqb_refl|cbn [fits]; apply Nat.eqb_eq; lia].
  - right. intros p Hp. destruct (Nat.eq_dec p 0) as [->|]; [rewrite E0; auto|]. rewrite iprog_w, H1 by lia. auto.
Qed.
(** messages still to be sent from operator i on *)
Fixpoint lefti (k i : nat) : nat := match k with 0 => T | S k => length (vals i) + lefti k (i + 1) end.
Definition remi (i : nat) : nat := lefti (T - i) i.
Lemma remi_S : forall i, i < T -> remi i = length (vals i) + remi (i + 1).
Proof. intros i H. unfold remi. replace (T - i) with (S (T - (i + 1))) by lia. reflexivity. Qed.
Definition mui (g : nat -> loci) : nat := match g 0 with IStr i ms => length ms + remi (i + 1) | IRecv i _ => T - i | _ => 0 end.
Lemma msgs_len_i : forall w t, length (msgs w t) = length (vals t).
Proof. intros w t. rewrite <- (H_vals w t), map_length. auto. Qed.
Lemma istr_mu : forall g i, g 0 = istr i -> mui g <= remi i.
Proof.
  intros g i E. unfold mui. rewrite E. unfold Gather.istr. destruct (Nat.ltb_spec i T).
  - rewrite msgs_len_i. rewrite <- remi_S by auto. auto.
  - unfold Gather.irecv, remi. replace (T - i) with 0 by lia. cbn [lefti]. destruct (0 <? T); lia.
Qed.
Lemma mui_dec : forall g g', GI g -> sync g g' -> mui g' < mui g.
Proof.
  intros g g' HG HS. destruct (sync_inv_gen _ _ _ _ g g' HS) as [p [d [t [v [l [so [to [k [Hp [Hd [N [E1 [E2 [F1 [F2 ->]]]]]]]]]]]]]]]. clear HS.
  destruct (Nat.eq_dec p 0) as [->|Hp0].
  - assert (G0 : forall y, setl (setl g 0 l) d y 0 = l) by (intros y; rewrite setl_ne by auto; apply setl_eq).
    destruct HG as [i p1 ms E0 Hi Hms Hm Ew H1 H2 H3|i E0 Hi H1 H2 H3|E0 H1]; rewrite E0 in E1; try discriminate.
    destruct ms as [|m ms]; [congruence|]. cbv beta iota delta [iprog Nat.eqb] in E1. inversion E1; subst d t v l. unfold mui at 2. rewrite E0. cbn [length].
    destruct ms as [|m2 ms].
    + pose proof (istr_mu _ _ (G0 (k 0 (fst m) (snd m)))). cbn [length]. lia.
    + unfold mui. rewrite G0. cbn [length]. lia.
  - destruct (worker_sends_i _ _ _ _ _ _ Hp0 E1) as [x [Ex [-> [-> [-> ->]]]]]. unfold mui at 1. rewrite setl_eq. unfold mui.
    destruct HG as [i p1 ms E0 Hi Hms Hm Ew H1 H2 H3|i E0 Hi H1 H2 H3|E0 H1]; rewrite E0 in E2; try discriminate.
    + cbv beta iota delta [iprog Nat.eqb] in E2. destruct ms; discriminate.
    + cbv beta iota delta [iprog Nat.eqb] in E2. inversion E2; subst so to k. rewrite E0. unfold Gather.irecv. destruct (Nat.ltb_spec (i + 1) T); lia.
Qed.
Definition owei (w : nat) (l : loci) : nat := match l with JRes _ => 1 | _ => 0 end.
Lemma owei_send : forall w l d t v l', 1 <= w -> w < S W -> prog w l = ASend d t v l' -> owei w l = S (owei w l').
Proof. intros w l d t v l' H1 H2 E. destruct (worker_sends_i w l d t v l' ltac:(lia) E) as [x [-> [_ [_ [_ ->]]]]]. auto. Qed.
Lemma owei_max : forall g w, GI g -> 1 <= w -> w < S W -> owei w (g w) <= 1.
Proof. intros g w _ _ _. destruct (g w); cbn; lia. Qed.
Lemma few_completes : completes prog (S W) iinit (3 * remi 0 + W) (fun l => l 0 = IDone (map (fun t => (t, h (vals t))) (seq 0 T)) /\ forall w, 1 <= w <= W -> l w = JDone).
Proof.
  intros n s H. pose proof GI_init as HG. split; [|split].
  - pose proof (bounded loci gval prog W shape_i GI GI_sync GI_safe mui mui_dec owei owei_send 1 owei_max n iinit s HG H) as Q.
    pose proof (istr_mu iinit 0 eq_refl). lia.
  - exact (no_deadlock loci gval prog W shape_i GI GI_sync GI_safe GI_prog n iinit s HG H).
  - intros F. destruct (steps_abs loci gval prog W shape_i GI GI_sync GI_safe n iinit s HG H) as [g [HGg HA]].
    assert (Q : forall p, p < S W -> loc s p = g p) by (apply final_abs with (prog := prog) (W := W) (G := GI); auto).
    destruct F as [F _]. pose proof (F 0 ltac:(lia)) as F0. rewrite Q in F0 by lia.
    destruct HGg as [i p1 ms E0 Hi Hms Hm Ew H1 H2 H3|i E0 Hi H1 H2 H3|E0 H1]; rewrite E0 in F0; try discriminate.
    { destruct ms; [congruence|discriminate]. }
    split; [rewrite Q by lia; auto|]. intros w Hw. rewrite Q by lia. apply H1; lia.
Qed.
End FewFacts.
