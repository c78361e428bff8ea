(** FiniteMPS: requests out of range, combined statements, concrete instances over Z. *)
From Coq Require Import List Arith Lia Bool ZArith Ring.
From Verif Require Import Base CoefOpAlg Numeric FiniteMps FmpsSpec FmpsFacts FmpsTruth FmpsNorm.
Import ListNotations.

Section Range.
Variables (R : Type) (r0 : R) (radd rmul : R -> R -> R).
Variable qr : ten R -> ten R * mat2 R.
Variable svd1 : ten R -> mat2 R * ten R * list R.
Notation sized st := (length (types st) = length (tens st)).
Lemma lcan_range : forall dbg i st st', lcan_ten R r0 radd rmul qr dbg i st = Ok st' -> sized st ->
  S i < length (tens st) /\ length (tens st') = length (tens st) /\ sized st'.
Proof.
  intros dbg i st st' H HS. unfold lcan_ten in H. inv_bind H. inv_bind H. apply touch_inv in Hb0. destruct Hb0 as [A1 [A2 ->]].
  inv_bind H. destruct (qr a0) as [q m]. inv_bind H. apply put_inv in Hb1. destruct Hb1 as [A3 ->]. inv_bind H. apply touch_inv in Hb1. destruct Hb1 as [A4 [A5 ->]].
  inv_bind H. inv_bind H. inv_bind H. apply put_inv in Hb3. destruct Hb3 as [A6 ->]. inv_bind H. apply flag_inv in Hb3. destruct Hb3 as [A7 ->].
  apply flag_inv in H. destruct H as [A8 ->]. cbn [tens types] in *. rewrite !upd_length in *. split; [|split]; try lia.
Qed.
Lemma scan_left_range : forall ty n i o, scan_left ty i n = Ok o -> 0 < n ->
  match o with Some start => i <= start < i + n /\ start < length ty | None => i + n <= length ty end.
Proof.
  intros ty. induction n as [|n IH]; intros i o H HP; [lia|]. simpl in H. inv_bind H.
  assert (L : i < length ty). { unfold vget in Hb. destruct (nth_error ty i) eqn:E; [|discriminate]. apply nth_error_Some. congruence. }
  destruct (negb (is_left a)); [injection H as <-; lia|]. destruct (Nat.eqb_spec n 0); [injection H as <-; lia|].
  specialize (IH _ _ H ltac:(lia)). destruct o; lia.
Qed.
Lemma left_cano_range : forall dbg stop st st', left_cano R r0 radd rmul qr dbg stop st = Ok st' -> sized st ->
  stop < length (tens st) /\ length (tens st') = length (tens st).
Proof.
  intros dbg stop st st' H HS. unfold left_cano in H. inv_bind H. apply scan_left_range in Hb; [|lia]. destruct a as [start|].
  - replace (S stop - start) with ((stop - start) + 1) in H by lia.
    assert (G : length (tens st') = length (tens st) /\ sized st' /\ (forall i, start <= i -> i < start + (stop - start + 1) -> S i < length (tens st))).
    { refine (for_loop_inv_partial _ (fun j s => length (tens s) = length (tens st) /\ sized s /\ (forall i, start <= i -> i < j -> S i < length (tens st))) _ _ _ st st' _ _ H).
      - split; auto. split; auto. intros. lia.
      - intros i s s' Hi [P1 [P2 P3]] E. apply lcan_range in E; auto. destruct E as [E1 [E2 E3]]. split; [lia|]. split; auto.
        intros i' Hi' Hj. destruct (Nat.eq_dec i' i); [subst i'; lia|apply P3; lia]. } 
    destruct G as [G1 [G2 G3]]. split; auto. specialize (G3 stop). lia.
  - injection H as <-. lia.
Qed.
(** Centralize completes only for 0 <= k < N *)
Lemma centralize_range : forall dbg k st st', sized st -> centralize R r0 radd rmul qr svd1 dbg k st = Ok st' ->
  (0 <= k < Z.of_nat (length (tens st)))%Z.
Proof.
  intros dbg k st st' HS H. unfold centralize in H. inv_bind H. destruct (Z.ltb_spec k 0); [discriminate|]. cbv zeta in H.
  split; [lia|]. inv_bind H. destruct (Nat.eqb_spec (Z.to_nat k) 0).
  - injection Hb0 as <-. inv_bind H. destruct (length (tens st)) as [|n] eqn:E; [|lia]. simpl in Hb0. unfold right_cano in Hb0. rewrite E in Hb0. simpl in Hb0. discriminate.
  - apply left_cano_range in Hb0; auto. destruct Hb0 as [B1 B2]. destruct (Z.eq_dec k (Z.of_nat (length (tens st)))) as [E|E]; [|lia].
    inv_bind H. rewrite B2 in Hb0. destruct (Nat.eqb_spec (Z.to_nat k) (length (tens st) - 1)); [lia|]. rewrite andb_false_r in Hb0.
    unfold right_cano in Hb0. rewrite B2 in Hb0. destruct (Nat.leb_spec (length (tens st)) (Z.to_nat k + 1)); [discriminate|lia].
Qed.
End Range.

(** *** a three-site example over Z with the trivial exact decompositions *)
Local Open Scope Z_scope.
Definition zconj (x : Z) : Z := x.
Definition zqr := tqr Z 0 1.
Definition zsvd := tsvd Z 0 1.
Lemma zqr_exact : qr_exact Z 0 1 Z.add Z.mul zconj zqr.
Proof. exact (tqr_exact Z 0 1 Z.add Z.mul Z.sub Z.opp Zth zconj eq_refl eq_refl). Qed.
Lemma zsvd_exact : svd_exact Z 0 1 Z.add Z.mul zconj zsvd.
Proof. exact (tsvd_exact Z 0 1 Z.add Z.mul Z.sub Z.opp Zth zconj eq_refl eq_refl). Qed.
Definition zt (a b c : nat) (w : Z) : ten Z := mkTen a b c (fun l s r => w + Z.of_nat l + 2 * Z.of_nat s - Z.of_nat r).
Definition ex_ts : list (ten Z) := [zt 1 2 2 1; zt 2 2 2 3; zt 2 2 1 (-1)].
Definition ex_st : fmps Z := mkFmps (map Some ex_ts) [NONE; NONE; NONE] (-1).
Lemma ex_holds : holds Z ex_st ex_ts.
Proof. split; reflexivity. Qed.
Lemma ex_linked : linked Z 1 ex_ts 1.
Proof. simpl. auto. Qed.
Definition ex_amps : list Z := map (mps_amp Z 0 1 Z.add Z.mul ex_ts) [(fun _ => O); (fun i => if (i =? 1)%nat then 1%nat else O); (fun _ => 1%nat)].
Lemma ex_amps_nonzero : ex_amps = [-3; -5; 71].
Proof. vm_compute. reflexivity. Qed.
Definition ex_hist : list (mop Z) := [MAssign Z 0 (Some (zt 1 2 2 1)); MAssign Z 1 (Some (zt 2 2 1 3)); MCentralize Z 1].
Definition nrm (t : ten Z) : ten Z := t.
Definition ex_central : res (fmps Z) := for_each ex_hist (mexec Z 0 Z.add Z.mul zqr zsvd nrm true) (fmps_new Z 2).
Definition flags_of (r : res (fmps Z)) : option (list cano * Z) := match r with Ok s => Some (types s, center s) | _ => None end.
Lemma ex_hist_flags : flags_of ex_central = Some ([LEFT; NONE], 1).
Proof. vm_compute. reflexivity. Qed.
(** the same MPS after Load: flag LEFT, center 1, but tensor 0 is not left canonical *)
Definition stale : res (fmps Z) := let! st := ex_central in load_all Z (fun i => nth_error [zt 1 2 2 1; zt 2 2 1 3] i) st.
Lemma stale_refuted : exists st, stale = Ok st /\ center st = 1 /\ nth_error (types st) 0 = Some LEFT /\
  exists t, nth_error (tens st) 0 = Some (Some t) /\ ~ left_canonical Z 0 1 Z.add Z.mul zconj t.
Proof.
  destruct stale as [st| |] eqn:E; [|vm_compute in E; discriminate|vm_compute in E; discriminate].
  exists st. split; auto. vm_compute in E. injection E as <-. split; [reflexivity|]. split; [reflexivity|].
  eexists. split; [reflexivity|]. intros H. specialize (H O O). cbn [d2] in H. specialize (H ltac:(lia) ltac:(lia)). vm_compute in H. discriminate.
Qed.
Definition ex_c : res (fmps Z) := centralize Z 0 Z.add Z.mul zqr zsvd true 1 ex_st.
Lemma ex_c_flags : flags_of ex_c = Some ([LEFT; NONE; RIGHT], 1).
Proof. vm_compute. reflexivity. Qed.
Definition ex_norm : Z := norm2 Z 0 1 Z.add Z.mul zconj ex_ts.
Definition ex_frob : Z := match ex_c with Ok s => match nth_error (tens s) 1 with Some (Some t) => frob2 Z 0 Z.add Z.mul zconj t | _ => 0 end | _ => 0 end.
Lemma ex_norm_frob : ex_norm = 7992 /\ ex_frob = ex_norm.
Proof. vm_compute. auto. Qed.
Local Close Scope Z_scope.

Section Comb.
Variables (R : Type) (r0 r1 : R) (radd rmul rsub : R -> R -> R) (ropp : R -> R).
Variable Rth : ring_theory r0 r1 radd rmul rsub ropp (@eq R).
Variable conj : R -> R.
Hypothesis conj_0 : conj r0 = r0.
Hypothesis conj_1 : conj r1 = r1.
Hypothesis conj_add : forall a b, conj (radd a b) = radd (conj a) (conj b).
Hypothesis conj_mul : forall a b, conj (rmul a b) = rmul (conj a) (conj b).
Variable qr : ten R -> ten R * mat2 R.
Variable svd1 : ten R -> mat2 R * ten R * list R.
Hypothesis QR : qr_exact R r0 r1 radd rmul conj qr.
Hypothesis SVD : svd_exact R r0 r1 radd rmul conj svd1.

Lemma C12_lemma : forall dbg ts st k x y, holds R st ts -> linked R x ts y -> k < length ts ->
  exists st', centralize R r0 radd rmul qr svd1 dbg (Z.of_nat k) st = Ok st' /\ center st' = Z.of_nat k /\
    length (types st') = length ts /\
    (forall j, j < k -> nth_error (types st') j = Some LEFT) /\
    (forall j, k < j < length ts -> nth_error (types st') j = Some RIGHT).
Proof.
  intros dbg ts st k x y H1 H2 H3. destruct (centralize_ok R r0 r1 radd rmul rsub ropp Rth conj qr svd1 QR SVD dbg x y ts st k H1 H2 H3) as [st' [ts' [A [B [C [D [E F]]]]]]].
  exists st'. split; auto. split; auto. split; [|auto]. rewrite (proj2 B). apply (ss_len _ _ _ _ _ _ _ _ _ C).
Qed.
Definition same_amps (ts ts' : list (ten R)) : Prop :=
  length ts' = length ts /\ linked R 1 ts' 1 /\ map d1 ts' = map d1 ts /\
  forall s, config R ts s -> mps_amp R r0 r1 radd rmul ts' s = mps_amp R r0 r1 radd rmul ts s.
Lemma same_same : forall ts ts', same_state R r0 r1 radd rmul 1 1 ts ts' -> same_amps ts ts'.
Proof. intros ts ts' H. destruct H as [A B C D]. split; auto. split; auto. split; auto. intros s Hs. apply (D s Hs 0 0). lia. Qed.
Lemma C14_lemma : forall dbg ts st, holds R st ts -> linked R 1 ts 1 ->
  (forall k, k < length ts -> exists st' ts', centralize R r0 radd rmul qr svd1 dbg (Z.of_nat k) st = Ok st' /\ holds R st' ts' /\ same_amps ts ts') /\
  (forall k, S k < length ts -> exists st' ts', left_cano R r0 radd rmul qr dbg k st = Ok st' /\ holds R st' ts' /\ same_amps ts ts') /\
  (forall k, 0 < k < length ts -> exists st' ts', right_cano R r0 radd rmul qr svd1 dbg k st = Ok st' /\ holds R st' ts' /\ same_amps ts ts').
Proof.
  intros dbg ts st H1 H2. split; [|split]; intros k Hk.
  - destruct (centralize_ok R r0 r1 radd rmul rsub ropp Rth conj qr svd1 QR SVD dbg 1 1 ts st k H1 H2 Hk) as [st' [ts' [A [B [C _]]]]].
    exists st', ts'. split; auto. split; auto. apply same_same. auto.
  - destruct (left_cano_ok R r0 r1 radd rmul rsub ropp Rth conj qr QR dbg 1 1 ts st k H1 H2 Hk) as [st' [ts' [A [B [C _]]]]].
    exists st', ts'. split; auto. split; auto. apply same_same. auto.
  - destruct (right_cano_ok R r0 r1 radd rmul rsub ropp Rth conj qr svd1 QR SVD dbg 1 1 ts st k H1 H2 Hk) as [st' [ts' [A [B [C _]]]]].
    exists st', ts'. split; auto. split; auto. apply same_same. auto.
Qed.
(** truthful flags and a center: the norm is that of the center tensor; Centralize provides this *)
Lemma norm_lemma : forall dbg ts st k, holds R st ts -> linked R 1 ts 1 -> truthful R r0 r1 radd rmul conj st -> k < length ts ->
  exists st' t, centralize R r0 radd rmul qr svd1 dbg (Z.of_nat k) st = Ok st' /\ nth_error (tens st') k = Some (Some t) /\
    frob2 R r0 radd rmul conj t = norm2 R r0 r1 radd rmul conj ts.
Proof.
  intros dbg ts st k H1 H2 HT H3. destruct (centralize_ok R r0 r1 radd rmul rsub ropp Rth conj qr svd1 QR SVD dbg 1 1 ts st k H1 H2 H3) as [st' [ts' [A [B [C [D [E F]]]]]]].
  pose proof (same_same _ _ C) as [L1 [L2 [L3 L4]]].
  destruct (nth_error ts' k) as [t|] eqn:ET; [|apply nth_error_None in ET; lia].
  assert (TS : forall i, nth_error (tens st') i = option_map Some (nth_error ts' i)) by (intros; rewrite (proj1 B); apply nth_error_map).
  exists st', t. split; auto. split; [rewrite TS, ET; auto|].
  pose proof (centralize_true R r0 r1 radd rmul conj qr svd1 QR SVD dbg _ st st' HT A) as T'.
  rewrite <- (center_norm R r0 r1 radd rmul rsub ropp Rth conj conj_0 conj_1 conj_add conj_mul ts' k t); auto.
  - unfold norm2. rewrite L3. apply conf_ext_in. intros s' Hs. rewrite L4; auto. intros i u Hu. apply (Hs i).
    rewrite nth_error_map, Hu. reflexivity.
  - intros i u Hu Hi. destruct (proj1 (T' i) (E i Hi)) as [u' [U1 U2]]. rewrite TS, Hu in U1. injection U1 as <-. exact U2.
  - intros i u Hu Hi. assert (i < length ts') by (apply nth_error_Some; congruence).
    destruct (proj2 (T' i) (F i ltac:(lia))) as [u' [U1 U2]]. rewrite TS, Hu in U1. injection U1 as <-. exact U2.
Qed.
Lemma C15_lemma : forall ts st, holds R st ts -> linked R 1 ts 1 -> ts <> [] -> exists st' ts', reverse R st = Ok st' /\ holds R st' ts' /\
  length ts' = length ts /\ linked R 1 ts' 1 /\
  (forall s, mps_amp R r0 r1 radd rmul ts' s = mps_amp R r0 r1 radd rmul ts (fun i => s (length ts - 1 - i))) /\
  exists st'', reverse R st' = Ok st'' /\ holds R st'' ts.
Proof.
  intros ts st H1 H2 H3. destruct (reverse_ok R st ts H1 H3) as [st' [A1 [A2 [A3 A4]]]]. exists st', (rev (map (transpose R) ts)).
  assert (HL : length (rev (map (transpose R) ts)) = length ts) by (rewrite rev_length, map_length; auto).
  assert (HH : holds R st' (rev (map (transpose R) ts))) by (split; auto; rewrite A3, repeat_length; auto).
  split; auto. split; auto. split; auto. split; [apply linked_rev; auto|]. split.
  - intros s. unfold mps_amp. apply (reverse_amp R r0 r1 radd rmul rsub ropp Rth ts 1 1); auto.
  - destruct (reverse_ok R st' _ HH) as [st'' [B1 [B2 [B3 B4]]]]; [intros E; rewrite E in HL; destruct ts; simpl in HL; congruence|].
    exists st''. split; auto. split; [rewrite B2, reverse_twice_list; auto|]. rewrite B3, repeat_length. auto.
Qed.
End Comb.
