From Coq Require Import List Arith Lia Bool.
From Verif Require Import Base Lanczos LanczosSpec LanczosFacts.
Import ListNotations.

Lemma skipn_next : forall A n (c : list A) x l, skipn n c = x :: l -> skipn (S n) c = l.
Proof. induction n as [|n IH]; intros [|y c] x l H; try discriminate; [cbn in *; congruence|]. cbn in H. apply IH in H. exact H. Qed.
Section Exp.
Variables F V C : Type.
Variables (zeroF : F) (isz : F -> bool).
Variable mul : V -> V.
Variable dot : V -> V -> F.
Variable lc1 : F -> V -> V -> V.
Variable lc2 : F -> V -> F -> V -> V -> V.
Variable normalize : V -> V * F.
Variable comb : list C -> list V -> V.
Variable cz : C.
Variable tri_x : list F -> list F -> list C.
Variable far : list C -> list C -> bool.
Variable diff : list C -> list C -> list C.
Variable scale : F -> list C -> list C.
Variable phase : F -> F -> V -> V.
Hypothesis tri_len : forall d e, length (tri_x d e) = length d.
Hypothesis diff_len : forall c d, length (diff c d) = length c.
Hypothesis scale_len : forall s c, length (scale s c) = length c.
Variable v0 : V.
Notation off := (fun x : F => x).
Notation qv := (qv F V zeroF mul dot lc1 lc2 normalize off v0). Notation al := (al F V zeroF mul dot lc1 lc2 normalize off v0). Notation be := (be F V zeroF mul dot lc1 lc2 normalize off v0).
Notation als := (als F V zeroF mul dot lc1 lc2 normalize off v0). Notation bes := (bes F V zeroF mul dot lc1 lc2 normalize off v0). Notation qvs := (qvs F V zeroF mul dot lc1 lc2 normalize off v0).
Notation coefx := (coefx F V C zeroF mul dot lc1 lc2 normalize off v0 cz tri_x).
Variables maxit dim : nat.
Notation vanishes := (vanishes F V zeroF isz mul dot lc1 lc2 normalize off v0).
Notation xsatisfied := (xsatisfied F V C zeroF mul dot lc1 lc2 normalize off v0 maxit dim cz tri_x far).
Notation exp_loop := (exp_loop F V C isz mul dot lc1 lc2 normalize comb tri_x far diff scale phase).
Notation exp_solver := (exp_solver F V C zeroF isz mul dot lc1 lc2 normalize comb cz tri_x far diff scale phase).
Notation heap := (heap V C). Notation mkH := (mkH V C). Notation cells := (cells V C). Notation arrs := (arrs V C). Notation coefs := (coefs V C).
Variable h0 : heap.
Variable p0 : nat.
Hypothesis Hp0 : nth_error (cells h0) p0 = Some (Some v0).
Notation c0 := (cells h0).
Notation L := (length (cells h0)).
Notation A0 := (length (arrs h0)).
Notation bc := (basis_cells F V zeroF mul dot lc1 lc2 normalize off v0 c0 p0).
Notation bsv := (bsv V c0 p0).
Notation n0 := (snd (normalize v0)).
Lemma xp0_in : p0 < L.
Proof. apply nth_error_Some. rewrite Hp0. discriminate. Qed.
Definition xav (n : nat) : list F := als n ++ repeat zeroF (maxit - n).
Definition xbv (n : nat) : list F := map be (seq 0 (n - 1)) ++ repeat zeroF (maxit - (n - 1)).
(** the vector returned when the m-th residual vanishes, and otherwise *)
Definition evolved0 (m : nat) : V := if m =? 1 then phase n0 (al 0) (qv 0) else comb (scale n0 (coefx m)) (qvs m).
Definition evolved (k : nat) : V := comb (scale n0 (coefx k)) (qvs k).
Definition xoutcome (m : nat) (r : xres) (h : heap) : Prop :=
  (vanishes m = true /\ xiters r = m /\ cleaned V C h0 p0 h (expmv r) (evolved0 m)) \/
  (vanishes m = false /\ xsatisfied m = true /\ xiters r = m + 1 /\ cleaned V C h0 p0 h (expmv r) (evolved (m + 1))).
Lemma xav_set : forall n, n < maxit -> vset (xav n) n (al n) = Ok (xav (S n)).
Proof.
  intros n H. unfold xav, LanczosSpec.als. replace (maxit - n) with (S (maxit - S n)) by lia.
  pose proof (vset_end _ (map al (seq 0 n)) zeroF (maxit - S n) (al n) maxit) as X. rewrite map_length, seq_length in X. rewrite X by lia. f_equal. rewrite map_snoc, <- app_assoc. reflexivity.
Qed.
Lemma xbv_set : forall n, 1 <= n -> n < maxit -> vset (xbv n) (n - 1) (be (n - 1)) = Ok (xbv (S n)).
Proof.
  intros n H1 H. unfold xbv. replace (maxit - (n - 1)) with (S (maxit - (S n - 1))) by lia.
  pose proof (vset_end _ (map be (seq 0 (n - 1))) zeroF (maxit - (S n - 1)) (be (n - 1)) maxit) as X. rewrite map_length, seq_length in X. rewrite X by lia. f_equal. replace (S n - 1) with (S (n - 1)) by lia. rewrite map_snoc, <- app_assoc. reflexivity.
Qed.
Lemma xtri_args : forall n, 1 <= n -> first n (xav n) = Ok (als n) /\ first (n - 1) (xbv n) = Ok (bes n).
Proof.
  intros n H. split; [apply first_pre; unfold LanczosSpec.als; rewrite map_length, seq_length; auto|].
  unfold xbv, LanczosSpec.bes. apply first_pre. rewrite map_length, seq_length. auto.
Qed.
Lemma coefx_len : forall k, 1 <= k -> length (coefx k) = k.
Proof. intros k H. unfold LanczosSpec.coefx. destruct (Nat.eqb_spec k 1) as [->|]; auto. rewrite tri_len. unfold LanczosSpec.als. rewrite map_length, seq_length. auto. Qed.
(** arrays *)
Lemma wra_ok : forall p l h c, coefs p h = Ok c -> length l <= length c -> exists h1, wra V C p l h = Ok h1 /\ cells h1 = cells h /\ length (arrs h1) = length (arrs h) /\
  coefs p h1 = Ok (l ++ skipn (length l) c) /\ forall q, q <> p -> nth_error (arrs h1) q = nth_error (arrs h) q.
Proof.
  intros p l h c H HL. unfold wra. rewrite H. cbn [bind]. rewrite (proj2 (Nat.leb_le _ _) HL). eexists. split; [reflexivity|]. cbn. split; auto. split; [apply upd_length|].
  assert (LP : p < length (arrs h)). { unfold Lanczos.coefs in H. apply nth_error_Some. destruct (nth_error (arrs h) p); discriminate. }
  split; [unfold Lanczos.coefs; cbn; rewrite nth_error_upd_same by auto; reflexivity|]. intros q Hq. apply nth_error_upd_other. auto.
Qed.
Lemma coefs_same : forall p h h1, nth_error (arrs h1) p = nth_error (arrs h) p -> coefs p h1 = coefs p h.
Proof. intros p h h1 H. unfold Lanczos.coefs. rewrite H. reflexivity. Qed.
Record two (h : heap) (cf lcf : nat) : Prop := {
  two_len : length (arrs h) = A0 + 2;
  two_old : forall i, i < A0 -> nth_error (arrs h) i = nth_error (arrs h0) i;
  two_ne : cf <> lcf; two_cf : A0 <= cf; two_lcf : A0 <= lcf;
  two_all : forall i, A0 <= i -> i < A0 + 2 -> i = cf \/ i = lcf }.
Lemma two_wra : forall h h1 cf lcf p, two h cf lcf -> A0 <= p -> length (arrs h1) = length (arrs h) -> (forall q, q <> p -> nth_error (arrs h1) q = nth_error (arrs h) q) -> two h1 cf lcf.
Proof. intros h h1 cf lcf p [T1 T2 T3 T4 T5 T6] HP HL HQ. constructor; auto; [congruence|]. intros i Hi. rewrite HQ by lia. auto. Qed.
(** the end of both exits *)
Lemma xfree_ok : forall k x v cf lcf ar c l, 1 <= k -> k <= maxit -> two (mkH (bc k [Some x; Some v]) ar) cf lcf -> nth_error ar cf = Some (Some c) -> nth_error ar lcf = Some (Some l) ->
  exists h', (let! h := free_all V C (Some cf) (bsv k maxit) (L + (k - 1)) (mkH (bc k [Some x; Some v]) ar) in dela V C (Some lcf) h) = Ok h' /\ cleaned V C h0 p0 h' (L + k) v.
Proof.
  intros k x v cf lcf ar c l H1 H2 [T1 T2 T3 T4 T5 T6] HC HL. cbn [Lanczos.arrs] in *.
  assert (LC : cf < length ar) by (apply nth_error_Some; congruence). assert (LL : lcf < length ar) by (apply nth_error_Some; congruence).
  assert (DA : dela V C (Some cf) (mkH (bc k [Some x; Some v]) ar) = Ok (mkH (bc k [Some x; Some v]) (upd ar cf None))) by (unfold dela; cbn; rewrite HC; reflexivity).
  destruct (free_all_ok F V C zeroF mul dot lc1 lc2 normalize off v0 c0 p0 xp0_in k maxit x v _ _ _ H1 DA) as [h' [A1 [_ [A3 [A4 [A5 [A6 A7]]]]]]].
  rewrite A1. cbn [bind]. unfold dela. rewrite A3, nth_error_upd_other by auto. rewrite HL. eexists. split; [reflexivity|].
  unfold cleaned. cbn [Lanczos.cells Lanczos.arrs]. repeat (split; [assumption || lia|]). split.
  - intros i Hi. rewrite nth_error_upd_other by lia. rewrite nth_error_upd_other by lia. auto.
  - intros i y Hi E. assert (i < A0 + 2). { rewrite <- T1. assert (i < length (upd (upd ar cf None) lcf None)) by (apply nth_error_Some; congruence). rewrite !upd_length in H. auto. }
    destruct (T6 i Hi H) as [->| ->].
    + rewrite nth_error_upd_other in E by auto. rewrite nth_error_upd_same in E by auto. discriminate.
    + rewrite nth_error_upd_same in E by (rewrite upd_length; auto). discriminate.
Qed.
Lemma two_alive : forall h cf lcf c l, two h cf lcf -> coefs cf h = Ok c -> coefs lcf h = Ok l -> nth_error (arrs h) cf = Some (Some c) /\ nth_error (arrs h) lcf = Some (Some l).
Proof.
  intros h cf lcf c l _ H1 H2. unfold Lanczos.coefs in *. destruct (nth_error (arrs h) cf) as [[x|]|]; try discriminate. destruct (nth_error (arrs h) lcf) as [[y|]|]; try discriminate. split; congruence.
Qed.
(** coefficients in the array: scale, combine, free *)
Lemma xfinish_ok : forall k x h cf lcf r l, 1 <= k -> k <= maxit -> cells h = bc k [Some x] -> two h cf lcf -> coefs cf h = Ok (coefx k ++ r) -> coefs lcf h = Ok l ->
  exists h', (let! h := scale_n F V C scale k cf n0 h in let! (p, h) := xcombine V C comb k cf (bsv k maxit) h in let! h := free_all V C (Some cf) (bsv k maxit) (L + (k - 1)) h in let! h := dela V C (Some lcf) h in Ok (p, h)) = Ok (L + k, h') /\
    cleaned V C h0 p0 h' (L + k) (evolved k).
Proof.
  intros k x h cf lcf r l H1 H2 HC TW HF HL. unfold scale_n. rewrite HF. cbn [bind]. rewrite first_pre by (rewrite coefx_len; auto). cbn [bind].
  destruct (wra_ok cf (scale n0 (coefx k)) h _ HF) as [h1 [W1 [W2 [W3 [W4 W5]]]]]; [rewrite scale_len, app_length; lia|].
  rewrite W1. cbn [bind]. unfold xcombine. rewrite W4. cbn [bind]. rewrite first_pre by (rewrite scale_len, coefx_len; auto). cbn [bind].
  destruct h1 as [cs ar]. cbn [Lanczos.cells Lanczos.arrs] in *. rewrite HC in W2. subst cs. rewrite base_list_ok by (auto using xp0_in). cbn [bind]. unfold new. cbn [bind Lanczos.cells Lanczos.arrs].
  fold (LanczosSpec.qvs F V zeroF mul dot lc1 lc2 normalize off v0 k). change (comb (scale n0 (coefx k)) (qvs k)) with (evolved k). rewrite (bc_len F V zeroF mul dot lc1 lc2 normalize off v0 c0 p0 xp0_in). cbn [length].
  assert (E : bc k [Some x] ++ [Some (evolved k)] = bc k [Some x; Some (evolved k)]) by (unfold basis_cells; rewrite <- !app_assoc; reflexivity). rewrite E.
  assert (TW1 : two (mkH (bc k [Some x; Some (evolved k)]) ar) cf lcf) by (apply (two_wra h _ cf lcf cf TW); [destruct TW; assumption|exact W3|exact W5]).
  assert (HL1 : coefs lcf (mkH (bc k [Some x; Some (evolved k)]) ar) = Ok l). { rewrite <- HL. apply coefs_same. cbn. apply W5. destruct TW. auto. }
  destruct (two_alive _ _ _ _ _ TW1 W4 HL1) as [X1 X2].
  destruct (xfree_ok k x (evolved k) cf lcf ar _ _ H1 H2 TW1 X1 X2) as [h' [Y1 Y2]]. exists h'. split; auto.
  destruct (free_all V C (Some cf) (bsv k maxit) (L + (k - 1)) _) as [h3| |]; cbn [bind] in *; try discriminate. rewrite Y1. cbn [bind]. f_equal. f_equal. lia.
Qed.
Lemma xbc_last : forall n x ar, rd V C (L + (n - 1)) (mkH (bc n [Some x]) ar) = Ok x.
Proof. intros. apply rd_alive. cbn. rewrite <- (Nat.add_0_r (L + (n - 1))). rewrite bc_after by exact xp0_in. reflexivity. Qed.
Lemma xhead_ok : forall n h ar, 1 <= n -> h = mkH (bc n [Some (mul (qv (n - 1)))]) ar ->
  (if n =? 1 then let! q := base V C (bsv n maxit) (n - 1) h in Ok (lc1 (al (n - 1)) q (mul (qv (n - 1))))
   else let! x := vget (xbv n) (n - 2) in let! q := base V C (bsv n maxit) (n - 1) h in let! q' := base V C (bsv n maxit) (n - 2) h in Ok (lc2 (al (n - 1)) q x q' (mul (qv (n - 1))))) =
  Ok (residual F V zeroF mul dot lc1 lc2 normalize off v0 (n - 1)).
Proof.
  intros n h ar H ->. pose proof xp0_in. unfold residual. destruct (Nat.eqb_spec n 1) as [->|NE].
  - rewrite base_ok by (auto; lia). reflexivity.
  - assert (GB : vget (xbv n) (n - 2) = Ok (be (n - 2))) by (apply (vget_map _ be (n - 1) _ (n - 2) 0); lia). rewrite GB. cbn [bind]. rewrite !base_ok by (auto; lia). cbn [bind].
    destruct (Nat.eqb_spec (n - 1) 0); [lia|]. replace (n - 1 - 1) with (n - 2) by lia. reflexivity.
Qed.
Lemma xsolve_ok : forall k h cf c, 1 <= k -> k <= length c -> coefs cf h = Ok c -> exists h1, xsolve F V C tri_x (xav k) (xbv k) k cf h = Ok h1 /\ cells h1 = cells h /\ length (arrs h1) = length (arrs h) /\
  coefs cf h1 = Ok (tri_x (als k) (bes k) ++ skipn k c) /\ forall q, q <> cf -> nth_error (arrs h1) q = nth_error (arrs h) q.
Proof.
  intros k h cf c H1 HL HC. destruct (xtri_args k H1) as [T1 T2]. unfold xsolve. rewrite T1, T2. cbn [bind].
  assert (LL : length (tri_x (als k) (bes k)) = k) by (rewrite tri_len; unfold LanczosSpec.als; rewrite map_length, seq_length; auto).
  destruct (wra_ok cf (tri_x (als k) (bes k)) h c HC ltac:(lia)) as [h1 W]. exists h1. rewrite LL in W. exact W.
Qed.
Theorem exp_loop_ok : forall fuel n cf lcf c ar, 1 <= n -> n < maxit -> maxit - n <= fuel -> two (mkH (bc n [Some (mul (qv (n - 1)))]) ar) cf lcf ->
  nth_error ar cf = Some (Some c) -> length c = maxit -> skipn n c = repeat cz (maxit - n) -> nth_error ar lcf = Some (Some (coefx n ++ repeat cz (maxit - n))) ->
  exists m r h', n <= m < maxit /\ (forall j, n <= j < m -> vanishes j = false /\ xsatisfied j = false) /\ xoutcome m r h' /\
  exp_loop fuel (n - 1) maxit dim (bsv n maxit) (xav n) (xbv n) n0 (L + (n - 1)) cf lcf (mkH (bc n [Some (mul (qv (n - 1)))]) ar) = Ok (r, h').
Proof.
  pose proof xp0_in as HP. induction fuel as [|fuel IH]; intros n cf lcf c ar H1 H2 HF TW HC HLC HSK HL; [lia|].
  cbn [Lanczos.exp_loop]. replace (n - 1 + 1) with n by lia. rewrite xbc_last. cbn [bind].
  assert (GA : vget (xav n) (n - 1) = Ok (al (n - 1))) by (apply (vget_map _ al n _ (n - 1) 0); lia). rewrite GA. cbn [bind].
  rewrite (xhead_ok n _ ar H1 eq_refl). cbn [bind]. rewrite residual_ok. replace (S (n - 1)) with n by lia.
  unfold wr. rewrite xbc_last. cbn [bind Lanczos.cells Lanczos.arrs]. rewrite bc_upd by exact xp0_in.
  change (isz (be (n - 1))) with (vanishes n).
  assert (TW2 : forall cs, two (mkH cs ar) cf lcf) by (intros cs; destruct TW; constructor; auto).
  assert (CF : forall cs, coefs cf (mkH cs ar) = Ok c) by (intros; unfold Lanczos.coefs; cbn; rewrite HC; reflexivity).
  assert (CL : forall cs, coefs lcf (mkH cs ar) = Ok (coefx n ++ repeat cz (maxit - n))) by (intros; unfold Lanczos.coefs; cbn; rewrite HL; reflexivity).
  destruct (vanishes n) eqn:EV.
  - destruct (Nat.eqb_spec n 1) as [->|NE].
    + assert (GA0 : vget (xav 1) 0 = Ok (al 0)) by reflexivity. rewrite GA0. cbn [bind]. rewrite base_ok by (auto; lia). cbn [bind]. unfold new. cbn [Lanczos.cells Lanczos.arrs bind]. rewrite (bc_len F V zeroF mul dot lc1 lc2 normalize off v0 c0 p0 xp0_in).
      set (v := phase n0 (al 0) (qv 0)). assert (E : bc 1 [Some (qv 1)] ++ [Some v] = bc 1 [Some (qv 1); Some v]) by (unfold basis_cells; rewrite <- !app_assoc; reflexivity). rewrite E.
      destruct (xfree_ok 1 (qv 1) v cf lcf ar _ _ H1 ltac:(lia) (TW2 _) HC HL) as [h' [Y1 Y2]].
      destruct (free_all V C (Some cf) (bsv 1 maxit) (L + (1 - 1)) _) as [h3| |]; cbn [bind] in *; try discriminate. rewrite Y1. cbn [bind].
      exists 1. eexists. exists h'. split; [lia|]. split; [intros; lia|]. split; [|reflexivity]. left. split; auto. split; [reflexivity|]. cbn [expmv length]. replace (L + (1 - 1) + 1) with (L + 1) by lia. exact Y2.
    + destruct (xsolve_ok n (mkH (bc n [Some (qv n)]) ar) cf c H1 ltac:(lia) (CF _)) as [h1 [W1 [W2 [W3 [W4 W5]]]]]. rewrite W1. cbn [bind].
      assert (CX : tri_x (als n) (bes n) = coefx n). { unfold LanczosSpec.coefx. apply Nat.eqb_neq in NE. rewrite NE. reflexivity. } rewrite CX in W4.
      assert (TW1 : two h1 cf lcf) by (eapply (two_wra (mkH (bc n [Some (qv n)]) ar)); [apply TW2|exact (two_cf _ _ _ TW)|exact W3|exact W5]).
      assert (CL1 : coefs lcf h1 = Ok (coefx n ++ repeat cz (maxit - n))). { rewrite <- (CL (bc n [Some (qv n)])). apply coefs_same. apply W5. destruct TW. auto. }
      destruct (xfinish_ok n (qv n) h1 cf lcf _ _ H1 ltac:(lia) W2 TW1 W4 CL1) as [h' [Y1 Y2]].
      destruct (scale_n F V C scale n cf n0 h1) as [h2| |]; cbn [bind] in *; try discriminate.
      destruct (xcombine V C comb n cf (bsv n maxit) h2) as [[p h3]| |]; cbn [bind] in *; try discriminate.
      destruct (free_all V C (Some cf) (bsv n maxit) (L + (n - 1)) h3) as [h4| |]; cbn [bind] in *; try discriminate.
      destruct (dela V C (Some lcf) h4) as [h5| |]; cbn [bind] in *; try discriminate. injection Y1 as -> ->.
      exists n. eexists. exists h'. split; [lia|]. split; [intros; lia|]. split; [|reflexivity]. left. split; auto. split; [reflexivity|]. cbn [expmv]. unfold evolved0. apply Nat.eqb_neq in NE. rewrite NE. exact Y2.
  - rewrite xbv_set by auto. cbn [bind]. rewrite bsv_set by auto. cbn [bind].
    pose proof (bc_snoc F V zeroF mul dot lc1 lc2 normalize off v0 c0 p0 xp0_in n [] [] H1) as BS. cbn [app] in BS. rewrite BS. clear BS.
    rewrite (base_ok F V C zeroF mul dot lc1 lc2 normalize off v0 c0 p0 HP (S n) maxit n) by lia. cbn [bind]. unfold new. cbn [Lanczos.cells Lanczos.arrs]. rewrite (bc_len F V zeroF mul dot lc1 lc2 normalize off v0 c0 p0 xp0_in).
    cbn [length app]. change (dot (mul (qv n)) (qv n)) with (al n). rewrite xav_set by auto. cbn [bind].
    assert (E : bc (S n) [] ++ [Some (mul (qv n))] = bc (S n) [Some (mul (qv n))]) by (unfold basis_cells; rewrite <- !app_assoc; reflexivity). rewrite E.
    replace (L + (S n - 1) + 0) with (L + (S n - 1)) by lia. replace (n + 1) with (S n) by lia.
    destruct (xsolve_ok (S n) (mkH (bc (S n) [Some (mul (qv n))]) ar) cf c ltac:(lia) ltac:(lia) (CF _)) as [h1 [W1 [W2 [W3 [W4 W5]]]]]. rewrite W1. cbn [bind].
    assert (CX : tri_x (als (S n)) (bes (S n)) = coefx (S n)). { unfold LanczosSpec.coefx. destruct (Nat.eqb_spec (S n) 1); [lia|]. reflexivity. } rewrite CX in W4.
    assert (SK : skipn (S n) c = repeat cz (maxit - S n)).
    { replace (maxit - n) with (S (maxit - S n)) in HSK by lia. cbn [repeat] in HSK. eapply skipn_next. exact HSK. }
    rewrite SK in W4.
    assert (TW1 : two h1 cf lcf) by (eapply (two_wra (mkH (bc (S n) [Some (mul (qv n))]) ar)); [apply TW2|exact (two_cf _ _ _ TW)|exact W3|exact W5]).
    assert (CL1 : coefs lcf h1 = Ok (coefx n ++ repeat cz (maxit - n))). { rewrite <- (CL (bc (S n) [Some (mul (qv n))])). apply coefs_same. apply W5. destruct TW. auto. }
    rewrite CL1. cbn [bind].
    assert (F1 : first (S n) (coefx n ++ repeat cz (maxit - n)) = Ok (coefx n ++ [cz])).
    { replace (maxit - n) with (S (maxit - S n)) by lia. cbn [repeat]. change (cz :: repeat cz (maxit - S n)) with ([cz] ++ repeat cz (maxit - S n)). rewrite app_assoc. apply first_pre. rewrite app_length, coefx_len by auto. cbn. lia. }
    rewrite F1. cbn [bind]. rewrite W4. cbn [bind]. rewrite first_pre by (rewrite coefx_len; lia). cbn [bind].
    destruct (wra_ok lcf (diff (coefx n ++ [cz]) (coefx (S n))) h1 _ CL1) as [h2 [U1 [U2 [U3 [U4 U5]]]]].
    { rewrite diff_len, !app_length, coefx_len, repeat_length by auto. cbn. lia. }
    rewrite U1. cbn [bind]. rewrite diff_len in U4. rewrite app_length, coefx_len in U4 by auto. cbn [length] in U4.
    assert (SK2 : skipn (n + 1) (coefx n ++ repeat cz (maxit - n)) = repeat cz (maxit - S n)).
    { rewrite skipn_app, coefx_len by auto. rewrite skipn_all2 by (rewrite coefx_len; lia). cbn [app]. replace (n + 1 - n) with 1 by lia. replace (maxit - n) with (S (maxit - S n)) by lia. reflexivity. }
    rewrite SK2 in U4.
    assert (TW3 : two h2 cf lcf) by (eapply (two_wra h1); [exact TW1|exact (two_lcf _ _ _ TW)|exact U3|exact U5]).
    assert (CF2 : coefs cf h2 = Ok (coefx (S n) ++ repeat cz (maxit - S n))). { rewrite <- W4. apply coefs_same. apply U5. destruct TW. auto. }
    assert (ES : negb (far (coefx n ++ [cz]) (coefx (S n))) || (n =? dim) || (n =? maxit - 1) = xsatisfied n) by (unfold LanczosSpec.xsatisfied; replace (n + 1) with (S n) by lia; reflexivity).
    rewrite ES. destruct (xsatisfied n) eqn:SA.
    + destruct (xfinish_ok (S n) (mul (qv n)) h2 cf lcf _ _ ltac:(lia) ltac:(lia) ltac:(rewrite U2; exact W2) TW3 CF2 U4) as [h' [Y1 Y2]].
      destruct (scale_n F V C scale (S n) cf n0 h2) as [h3| |]; cbn [bind] in *; try discriminate.
      destruct (xcombine V C comb (S n) cf (bsv (S n) maxit) h3) as [[p h4]| |]; cbn [bind] in *; try discriminate.
      destruct (free_all V C (Some cf) (bsv (S n) maxit) (L + (S n - 1)) h4) as [h5| |]; cbn [bind] in *; try discriminate.
      destruct (dela V C (Some lcf) h5) as [h6| |]; cbn [bind] in *; try discriminate. injection Y1 as -> ->.
      exists n. eexists. exists h'. split; [lia|]. split; [intros; lia|]. split; [|reflexivity]. right. cbn [xiters expmv]. replace (n + 1) with (S n) by lia. split; [exact EV|]. split; [exact SA|]. split; [reflexivity|]. exact Y2.
    + assert (n <> maxit - 1). { intros X. unfold LanczosSpec.xsatisfied in SA. rewrite X, Nat.eqb_refl, orb_true_r in SA. discriminate. }
      destruct h2 as [cs2 ar2]. cbn [Lanczos.cells Lanczos.arrs] in *. rewrite W2 in U2. subst cs2.
      assert (TW4 : two (mkH (bc (S n) [Some (mul (qv n))]) ar2) lcf cf). { destruct TW3 as [T1 T2 T3 T4 T5 T6]. constructor; auto. intros i Hi Hj. destruct (T6 i Hi Hj); auto. }
      destruct (two_alive _ _ _ _ _ TW4 U4 CF2) as [X1 X2]. cbn [Lanczos.arrs] in X1, X2.
      destruct (IH (S n) lcf cf (diff (coefx n ++ [cz]) (coefx (S n)) ++ repeat cz (maxit - S n)) ar2) as [m [r [h' [B1 [B2 [B3 B4]]]]]]; try lia; auto.
      * replace (S n - 1) with n by lia. exact TW4.
      * rewrite app_length, diff_len, app_length, coefx_len, repeat_length by auto. cbn. lia.
      * rewrite skipn_app, skipn_all2 by (rewrite diff_len, app_length, coefx_len by auto; cbn; lia). cbn [app]. rewrite diff_len, app_length, coefx_len by auto. cbn [length]. replace (S n - (n + 1)) with 0 by lia. reflexivity.
      * replace (S n - 1) with n in B4 by lia. replace (S n - 1) with n by lia. exists m, r, h'. split; [lia|]. split; [|split; auto]. intros j Hj. destruct (Nat.eq_dec j n) as [->|]; [auto|apply B2; lia].
Qed.
Definition xarrs : list (option (list C)) := arrs h0 ++ [Some (repeat cz maxit); Some (repeat cz maxit)].
Lemma xstart_ok : 1 <= maxit -> exp_solver maxit dim p0 h0 = exp_loop maxit 0 maxit dim (bsv 1 maxit) (xav 1) (xbv 1) n0 (L + 0) A0 (A0 + 1) (mkH (bc 1 [Some (mul (qv 0))]) xarrs).
Proof.
  intros H. pose proof xp0_in as HP. unfold Lanczos.exp_solver. rewrite (rd_alive V C _ _ _ Hp0). cbn [bind]. rewrite (surjective_pairing (normalize v0)). unfold wr. rewrite (rd_alive V C _ _ _ Hp0). cbn [bind].
  assert (RP : forall A (z : A), repeat z maxit = z :: repeat z (maxit - 1)). { intros A z. replace maxit with (S (maxit - 1)) at 1 by lia. reflexivity. }
  assert (VS : forall A (z x : A) l, vset (z :: l) 0 x = Ok (x :: l)) by reflexivity.
  rewrite !RP, !VS. cbn [bind].
  assert (B0 : Some p0 :: repeat None (maxit - 1) = bsv 1 maxit) by reflexivity. rewrite B0.
  assert (E : upd c0 p0 (Some (fst (normalize v0))) = bc 1 []) by (unfold basis_cells; cbn; rewrite app_nil_r; reflexivity). rewrite E.
  rewrite (base_ok F V C zeroF mul dot lc1 lc2 normalize off v0 c0 p0 HP 1 maxit 0) by lia. cbn [bind]. unfold new. cbn [Lanczos.cells Lanczos.arrs]. rewrite (bc_len F V zeroF mul dot lc1 lc2 normalize off v0 c0 p0 xp0_in). cbn [length].
  assert (E2 : bc 1 [] ++ [Some (mul (qv 0))] = bc 1 [Some (mul (qv 0))]) by (unfold basis_cells; rewrite <- !app_assoc; reflexivity). rewrite E2.
  rewrite !VS. cbn [bind newa Lanczos.cells Lanczos.arrs]. replace (L + (1 - 1) + 0) with (L + 0) by lia. rewrite app_length. cbn [length].
  unfold xarrs, xav, xbv. replace (maxit - (1 - 1)) with maxit by lia. cbn [Nat.sub seq map app]. rewrite <- app_assoc, !RP. reflexivity.
Qed.
Theorem exp_solver_ok : 2 <= maxit -> exists m r h', 1 <= m < maxit /\ running F V zeroF isz mul dot lc1 lc2 normalize off v0 xsatisfied m /\ xoutcome m r h' /\ exp_solver maxit dim p0 h0 = Ok (r, h').
Proof.
  intros H. rewrite xstart_ok by lia.
  assert (RP : forall A (z : A), repeat z maxit = z :: repeat z (maxit - 1)). { intros A z. replace maxit with (S (maxit - 1)) at 1 by lia. reflexivity. }
  destruct (exp_loop_ok maxit 1 A0 (A0 + 1) (repeat cz maxit) xarrs) as [m [r [h' [B1 [B2 [B3 B4]]]]]]; try lia.
  - constructor; try lia; cbn [Lanczos.arrs]; unfold xarrs; [rewrite app_length; cbn; lia|]. intros i Hi. apply nth_error_app1. auto.
  - unfold xarrs. rewrite nth_error_app2, Nat.sub_diag by lia. reflexivity.
  - apply repeat_length.
  - rewrite RP. reflexivity.
  - unfold xarrs. rewrite nth_error_app2 by lia. replace (A0 + 1 - A0) with 1 by lia. rewrite RP. reflexivity.
  - exists m, r, h'. split; auto.
Qed.
(** too few iterations *)
Theorem exp_solver_0 : maxit = 0 -> exp_solver maxit dim p0 h0 = Ub.
Proof. intros E. rewrite E. unfold Lanczos.exp_solver. rewrite (rd_alive V C _ _ _ Hp0). cbn [bind]. rewrite (surjective_pairing (normalize v0)). unfold wr. rewrite (rd_alive V C _ _ _ Hp0). reflexivity. Qed.
Theorem exp_solver_1 : maxit = 1 -> vanishes 1 = false -> exp_solver maxit dim p0 h0 = Ub.
Proof.
  intros E EV. pose proof xp0_in as HP. rewrite xstart_ok by lia. rewrite E at 1. cbn [Lanczos.exp_loop]. pose proof (xbc_last 1 (mul (qv 0)) xarrs) as BL. cbn [Nat.sub] in BL. rewrite BL. cbn [bind Nat.add Nat.sub].
  assert (GA : vget (xav 1) 0 = Ok (al 0)) by reflexivity. rewrite GA. cbn [bind].
  pose proof (xhead_ok 1 _ xarrs (le_n 1) eq_refl) as HO. cbn [Nat.sub] in HO. rewrite HO. cbn [bind]. rewrite residual_ok.
  unfold wr. rewrite BL. cbn [bind]. change (isz (be 0)) with (vanishes 1). rewrite EV.
  assert (SB : exists l, vset (xbv 1) 0 (be 0) = Ok l). { unfold xbv. replace (maxit - (1 - 1)) with (S (maxit - 1)) by lia. eexists. reflexivity. }
  destruct SB as [l SB]. rewrite SB. cbn [bind]. assert (SS : vset (bsv 1 maxit) 1 (Some (L + 0)) = Ub) by (rewrite E; reflexivity). rewrite SS. reflexivity.
Qed.
End Exp.
