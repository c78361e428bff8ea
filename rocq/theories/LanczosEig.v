From Coq Require Import List Arith Lia Bool.
From Verif Require Import Base Lanczos LanczosSpec LanczosFacts.
Import ListNotations.

Section Eig.
Variables F V C : Type.
Variables (zeroF : F) (sq : F -> F) (isz : F -> bool).
Variable mul : V -> V.
Variable dot : V -> V -> F.
Variable lc1 : F -> V -> V -> V.
Variable lc2 : F -> V -> F -> V -> V -> V.
Variable normalize : V -> V * F.
Variable copy : V -> V.
Hypothesis copy_id : forall v, copy v = v.
Variable tri_e : list F -> list F -> F.
Variable tri_v : list F -> list F -> list C.
Variable comb : list C -> list V -> V.
Variable close : F -> F -> bool.
Variable v0 : V.
Notation qv := (qv F V zeroF mul dot lc1 lc2 normalize sq v0). Notation al := (al F V zeroF mul dot lc1 lc2 normalize sq v0). Notation be := (be F V zeroF mul dot lc1 lc2 normalize sq v0).
Notation als := (als F V zeroF mul dot lc1 lc2 normalize sq v0). Notation bes := (bes F V zeroF mul dot lc1 lc2 normalize sq v0). Notation qvs := (qvs F V zeroF mul dot lc1 lc2 normalize sq v0).
Notation energy := (energy F V zeroF mul dot lc1 lc2 normalize sq v0 tri_e).
Variables maxit dim : nat.
Notation vanishes := (vanishes F V zeroF isz mul dot lc1 lc2 normalize sq v0).
Notation satisfied := (satisfied F V zeroF mul dot lc1 lc2 normalize sq v0 tri_e close maxit dim).
Notation eig_loop := (eig_loop F V C sq isz mul dot lc1 lc2 normalize copy tri_e tri_v comb close).
Notation eig_solver := (eig_solver F V C zeroF sq isz mul dot lc1 lc2 normalize copy tri_e tri_v comb close).
Notation heap := (heap V C). Notation mkH := (mkH V C). Notation cells := (cells V C). Notation arrs := (arrs V C).
Variable h0 : heap.
Variable p0 : nat.
Hypothesis Hp0 : nth_error (cells h0) p0 = Some (Some v0).
Notation c0 := (cells h0).
Notation L := (length (cells h0)).
Notation bc := (basis_cells F V zeroF mul dot lc1 lc2 normalize sq v0 c0 p0).
Notation bsv := (bsv V c0 p0).
Lemma p0_in : p0 < L.
Proof. apply nth_error_Some. rewrite Hp0. discriminate. Qed.
Definition av (n : nat) : list F := als n ++ repeat zeroF (maxit - n).
Definition bv (n : nat) : list F := map be (seq 0 (n - 1)) ++ repeat zeroF (maxit - (n - 1)).
Definition nv (n : nat) : list F := (zeroF :: map (fun j => sq (be j)) (seq 0 (n - 1))) ++ repeat zeroF (maxit - n).
(** the vector returned from a space of k vectors *)
Definition ground (k : nat) : V := if k =? 1 then qv 0 else comb (tri_v (als k) (bes k)) (qvs k).
Definition outcome (m : nat) (r : lres F) (h : heap) : Prop :=
  (vanishes m = true /\ iters _ r = m /\ Lanczos.eng _ r = energy m /\ cleaned V C h0 p0 h (gs _ r) (ground m)) \/
  (vanishes m = false /\ satisfied m = true /\ iters _ r = m + 1 /\ Lanczos.eng _ r = energy (m + 1) /\ cleaned V C h0 p0 h (gs _ r) (ground (m + 1))).
Lemma av_len : forall n, n <= maxit -> length (av n) = maxit.
Proof. intros. unfold av, LanczosSpec.als. rewrite app_length, map_length, seq_length, repeat_length. lia. Qed.
Lemma bv_len : forall n, 1 <= n -> n <= maxit -> length (bv n) = maxit.
Proof. intros. unfold bv. rewrite app_length, map_length, seq_length, repeat_length. lia. Qed.
Lemma nv_len : forall n, 1 <= n -> n <= maxit -> length (nv n) = maxit.
Proof. intros. unfold nv. cbn [app length]. rewrite app_length, map_length, seq_length, repeat_length. lia. Qed.
Lemma av_set : forall n, n < maxit -> vset (av n) n (al n) = Ok (av (S n)).
Proof.
  intros n H. unfold av, LanczosSpec.als. replace (maxit - n) with (S (maxit - S n)) by lia.
  pose proof (vset_end _ (map al (seq 0 n)) zeroF (maxit - S n) (al n) maxit) as X. rewrite map_length, seq_length in X. rewrite X by lia. f_equal. rewrite map_snoc, <- app_assoc. reflexivity.
Qed.
Lemma bv_set : forall n, 1 <= n -> n < maxit -> vset (bv n) (n - 1) (be (n - 1)) = Ok (bv (S n)).
Proof.
  intros n H1 H. unfold bv. replace (maxit - (n - 1)) with (S (maxit - (S n - 1))) by lia.
  pose proof (vset_end _ (map be (seq 0 (n - 1))) zeroF (maxit - (S n - 1)) (be (n - 1)) maxit) as X. rewrite map_length, seq_length in X. rewrite X by lia. f_equal. replace (S n - 1) with (S (n - 1)) by lia. rewrite map_snoc, <- app_assoc. reflexivity.
Qed.
Lemma nv_set : forall n, 1 <= n -> n < maxit -> vset (nv n) n (sq (be (n - 1))) = Ok (nv (S n)).
Proof.
  intros n H1 H. unfold nv. replace (maxit - n) with (S (maxit - S n)) by lia.
  pose proof (vset_end _ (zeroF :: map (fun j => sq (be j)) (seq 0 (n - 1))) zeroF (maxit - S n) (sq (be (n - 1))) maxit) as X. cbn [length] in X. rewrite map_length, seq_length in X. replace (S (n - 1)) with n in X by lia. rewrite X by lia. f_equal. replace (S n - 1) with (S (n - 1)) by lia. rewrite map_snoc. cbn [app]. rewrite <- app_assoc. reflexivity.
Qed.
Lemma nv_get : forall n i, 1 <= i -> i < n -> vget (nv n) i = Ok (sq (be (i - 1))).
Proof.
  intros n i H1 H. unfold nv. destruct i as [|i]; [lia|]. replace (S i - 1) with i by lia. cbn [app]. unfold vget. cbn [nth_error].
  pose proof (vget_map _ (fun j => sq (be j)) (n - 1) (repeat zeroF (maxit - n)) i 0 ltac:(lia)) as X. unfold vget in X. exact X.
Qed.
Lemma tri_args : forall n, 1 <= n -> first n (av n) = Ok (als n) /\ first (n - 1) (bv n) = Ok (bes n).
Proof.
  intros n H. split; [apply first_pre; unfold LanczosSpec.als; rewrite map_length, seq_length; auto|].
  unfold bv, LanczosSpec.bes. apply first_pre. rewrite map_length, seq_length. auto.
Qed.
(** building the result of k vectors and cleaning up, in both exits *)
Lemma finish_ok : forall k x ar, 1 <= k -> k <= maxit -> ar = arrs h0 ->
  exists h', (let! (_, ev, h) := gs_v F V C tri_e tri_v (av k) (bv k) k (mkH (bc k [Some x]) ar) in
              let! (p, h) := combine V C comb k ev (bsv k maxit) h in
              let! h := free_n V C (Some ev) (bsv k maxit) k (L + (k - 1)) h in Ok (p, h)) = Ok (L + k, h') /\
             cleaned V C h0 p0 h' (L + k) (comb (tri_v (als k) (bes k)) (qvs k)).
Proof.
  intros k x ar H1 H2 HA. destruct (tri_args k H1) as [T1 T2]. unfold gs_v. rewrite T1, T2. cbn [bind newa]. unfold combine, coefs. cbn [Lanczos.arrs Lanczos.cells].
  rewrite nth_error_app2, Nat.sub_diag by lia. cbn [nth_error bind]. rewrite base_list_ok by (auto using p0_in). cbn [bind]. fold (LanczosSpec.qvs F V zeroF mul dot lc1 lc2 normalize sq v0 k).
  unfold new. cbn [bind Lanczos.cells Lanczos.arrs]. set (v := comb _ _). rewrite (bc_len F V zeroF mul dot lc1 lc2 normalize sq v0 c0 p0 p0_in). cbn [length].
  assert (E : bc k [Some x] ++ [Some v] = bc k [Some x; Some v]) by (unfold basis_cells; rewrite <- !app_assoc; reflexivity). rewrite E.
  assert (DA : dela V C (Some (length ar)) (mkH (bc k [Some x; Some v]) (ar ++ [Some (tri_v (als k) (bes k))])) = Ok (mkH (bc k [Some x; Some v]) (ar ++ [None]))).
  { unfold dela. cbn [Lanczos.arrs Lanczos.cells]. rewrite nth_error_app2, Nat.sub_diag by lia. cbn [nth_error]. f_equal. f_equal. clear. induction ar as [|y ar IH]; cbn; auto. f_equal. auto. }
  destruct (free_all_ok F V C zeroF mul dot lc1 lc2 normalize sq v0 c0 p0 p0_in k maxit x v _ _ _ H1 DA) as [h' [_ [A2 [A3 [A4 [A5 [A6 A7]]]]]]].
  rewrite A2. cbn [bind]. exists h'. split; [f_equal; f_equal; lia|]. subst ar. repeat split; auto; try lia.
  - intros i Hi. rewrite A3. rewrite nth_error_app1 by auto. auto.
  - intros i l Hi. rewrite A3. rewrite nth_error_app2 by auto. destruct (i - length (arrs h0)) as [|[|k']]; cbn; discriminate.
Qed.
Lemma bc_last : forall n x, rd V C (L + (n - 1)) (mkH (bc n [Some x]) (arrs h0)) = Ok x.
Proof. intros. apply rd_alive. cbn. rewrite <- (Nat.add_0_r (L + (n - 1))). rewrite bc_after by exact p0_in. reflexivity. Qed.
Lemma head_ok : forall n h, 1 <= n -> h = mkH (bc n [Some (mul (qv (n - 1)))]) (arrs h0) ->
  (if n =? 1 then let! q := base V C (bsv n maxit) (n - 1) h in Ok (lc1 (al (n - 1)) q (mul (qv (n - 1))))
   else let! x := vget (nv n) (n - 1) in let! q := base V C (bsv n maxit) (n - 1) h in let! q' := base V C (bsv n maxit) (n - 2) h in Ok (lc2 (al (n - 1)) q x q' (mul (qv (n - 1))))) =
  Ok (residual F V zeroF mul dot lc1 lc2 normalize sq v0 (n - 1)).
Proof.
  intros n h H ->. pose proof p0_in. unfold residual. destruct (Nat.eqb_spec n 1) as [->|NE].
  - rewrite base_ok by (auto; lia). reflexivity.
  - rewrite nv_get by lia. cbn [bind]. rewrite !base_ok by (auto; lia). cbn [bind]. destruct (Nat.eqb_spec (n - 1) 0); [lia|]. replace (n - 1 - 1) with (n - 2) by lia. reflexivity.
Qed.
Theorem eig_loop_ok : forall fuel n, 1 <= n -> n < maxit -> maxit - n <= fuel -> exists m r h', n <= m < maxit /\
  (forall j, n <= j < m -> vanishes j = false /\ satisfied j = false) /\ outcome m r h' /\
  eig_loop fuel (n - 1) maxit dim (bsv n maxit) (av n) (bv n) (nv n) (energy n) (L + (n - 1)) (mkH (bc n [Some (mul (qv (n - 1)))]) (arrs h0)) = Ok (r, h').
Proof.
  pose proof p0_in as HP. induction fuel as [|fuel IH]; intros n H1 H2 HF; [lia|].
  cbn [Lanczos.eig_loop]. replace (n - 1 + 1) with n by lia. rewrite bc_last. cbn [bind].
  assert (GA : vget (av n) (n - 1) = Ok (al (n - 1))) by (apply (vget_map _ al n _ (n - 1) 0); lia). rewrite GA. cbn [bind].
  rewrite (head_ok n _ H1 eq_refl). cbn [bind]. rewrite residual_ok. replace (S (n - 1)) with n by lia.
  unfold wr. rewrite bc_last. cbn [bind Lanczos.cells Lanczos.arrs]. rewrite bc_upd by exact p0_in.
  fold (vanishes n). change (isz (be (n - 1))) with (vanishes n). destruct (vanishes n) eqn:EV.
  - destruct (Nat.eqb_spec n 1) as [->|NE].
    + rewrite base_ok by (auto; lia). cbn [bind]. rewrite copy_id. unfold new. cbn [Lanczos.cells Lanczos.arrs]. rewrite (bc_len F V zeroF mul dot lc1 lc2 normalize sq v0 c0 p0 p0_in).
      assert (E : bc 1 [Some (qv 1)] ++ [Some (qv 0)] = bc 1 [Some (qv 1); Some (qv 0)]) by (unfold basis_cells; rewrite <- !app_assoc; reflexivity). rewrite E.
      destruct (free_all_ok F V C zeroF mul dot lc1 lc2 normalize sq v0 c0 p0 p0_in 1 maxit (qv 1) (qv 0) (arrs h0) None (arrs h0) H1 eq_refl) as [h' [A1 [_ [A3 [A4 [A5 [A6 A7]]]]]]].
      rewrite A1. cbn [bind]. exists 1. eexists. exists h'. split; [lia|]. split; [intros; lia|]. split; [|reflexivity]. left. split; auto. split; [reflexivity|]. split; [reflexivity|]. unfold ground. cbn [Nat.eqb gs length].
      replace (L + (1 - 1) + 1) with (L + 1) by lia. repeat split; auto; try lia; rewrite A3; auto. intros i l Hi E1. assert (i < length (arrs h0)) by (apply nth_error_Some; congruence). lia.
    + destruct (finish_ok n (qv n) (arrs h0) H1 ltac:(lia) eq_refl) as [h' [A1 A2]].
      destruct (gs_v F V C tri_e tri_v (av n) (bv n) n _) as [[[e ev] h2]| |]; cbn [bind] in *; try discriminate.
      destruct (combine V C comb n ev (bsv n maxit) h2) as [[p h3]| |]; cbn [bind] in *; try discriminate.
      destruct (free_n V C (Some ev) (bsv n maxit) n (L + (n - 1)) h3) as [h4| |]; cbn [bind] in *; try discriminate. injection A1 as -> ->.
      exists n. eexists. exists h'. split; [lia|]. split; [intros; lia|]. split; [|reflexivity]. left. cbn [iters Lanczos.eng gs]. split; [exact EV|]. split; [reflexivity|]. split; [reflexivity|]. unfold ground. apply Nat.eqb_neq in NE. rewrite NE. exact A2.
  - rewrite nv_set, bv_set by auto. cbn [bind]. rewrite bsv_set by auto. cbn [bind].
    pose proof (bc_snoc F V zeroF mul dot lc1 lc2 normalize sq v0 c0 p0 p0_in n [] [] H1) as BS. cbn [app] in BS. rewrite BS. clear BS.
    rewrite (base_ok F V C zeroF mul dot lc1 lc2 normalize sq v0 c0 p0 HP (S n) maxit n) by lia. cbn [bind]. unfold new. cbn [Lanczos.cells Lanczos.arrs]. rewrite (bc_len F V zeroF mul dot lc1 lc2 normalize sq v0 c0 p0 p0_in).
    cbn [length app]. fold (al n). change (dot (mul (qv n)) (qv n)) with (al n). rewrite av_set by auto. cbn [bind].
    assert (E : bc (S n) [] ++ [Some (mul (qv n))] = bc (S n) [Some (mul (qv n))]) by (unfold basis_cells; rewrite <- !app_assoc; reflexivity). rewrite E.
    replace (L + (S n - 1) + 0) with (L + (S n - 1)) by lia. replace (n + 1) with (S n) by lia.
    destruct (tri_args (S n) ltac:(lia)) as [T1 T2]. unfold gs_n. rewrite T1. cbn [bind]. replace (S n - 1) with n in T2 by lia. replace (S n - 1) with n by lia. rewrite T2. cbn [bind].
    assert (EN : tri_e (als (S n)) (bes (S n)) = energy (S n)). { unfold LanczosSpec.energy. destruct (Nat.eqb_spec (S n) 1); [lia|]. reflexivity. }
    rewrite EN. assert (ES : close (energy n) (energy (S n)) || (n =? dim) || (n =? maxit - 1) = satisfied n) by (unfold LanczosSpec.satisfied; replace (n + 1) with (S n) by lia; reflexivity).
    rewrite ES. destruct (satisfied n) eqn:SA.
    + destruct (finish_ok (S n) (mul (qv n)) (arrs h0) ltac:(lia) ltac:(lia) eq_refl) as [h' [A1 A2]]. replace (S n - 1) with n in A1 by lia.
      destruct (gs_v F V C tri_e tri_v (av (S n)) (bv (S n)) (S n) _) as [[[e ev] h2]| |]; cbn [bind] in *; try discriminate.
      destruct (combine V C comb (S n) ev (bsv (S n) maxit) h2) as [[p h3]| |]; cbn [bind] in *; try discriminate.
      destruct (free_n V C (Some ev) (bsv (S n) maxit) (S n) (L + n) h3) as [h4| |]; cbn [bind] in *; try discriminate. injection A1 as -> ->.
      exists n. eexists. exists h'. split; [lia|]. split; [intros; lia|]. split; [|reflexivity]. right. cbn [iters Lanczos.eng gs]. replace (n + 1) with (S n) by lia. split; [exact EV|]. split; [exact SA|]. split; [reflexivity|]. split; [reflexivity|].
      unfold ground. destruct (Nat.eqb_spec (S n) 1); [lia|]. exact A2.
    + assert (n <> maxit - 1). { intros X. unfold LanczosSpec.satisfied in SA. rewrite X, Nat.eqb_refl, orb_true_r in SA. discriminate. }
      destruct (IH (S n)) as [m [r [h' [B1 [B2 [B3 B4]]]]]]; try lia. replace (S n - 1) with n in B4 by lia.
      exists m, r, h'. split; [lia|]. split; [|split; auto]. intros j Hj. destruct (Nat.eq_dec j n) as [->|]; [auto|apply B2; lia].
Qed.
Lemma start_ok : 1 <= maxit -> eig_solver maxit dim p0 h0 = eig_loop maxit 0 maxit dim (bsv 1 maxit) (av 1) (bv 1) (nv 1) (energy 1) (L + 0) (mkH (bc 1 [Some (mul (qv 0))]) (arrs h0)).
Proof.
  intros H. pose proof p0_in as HP. unfold Lanczos.eig_solver. rewrite (rd_alive V C _ _ _ Hp0). cbn [bind]. unfold wr. rewrite (rd_alive V C _ _ _ Hp0). cbn [bind].
  assert (RP : forall A (z : A), repeat z maxit = z :: repeat z (maxit - 1)). { intros A z. replace maxit with (S (maxit - 1)) at 1 by lia. reflexivity. }
  assert (VS : forall A (z x : A) l, vset (z :: l) 0 x = Ok (x :: l)) by reflexivity.
  rewrite !RP, !VS. cbn [bind].
  assert (B0 : Some p0 :: repeat None (maxit - 1) = bsv 1 maxit) by reflexivity. rewrite B0.
  assert (E : upd c0 p0 (Some (fst (normalize v0))) = bc 1 []) by (unfold basis_cells; cbn; rewrite app_nil_r; reflexivity). rewrite E.
  rewrite (base_ok F V C zeroF mul dot lc1 lc2 normalize sq v0 c0 p0 HP 1 maxit 0) by lia. cbn [bind]. unfold new. cbn [Lanczos.cells Lanczos.arrs]. rewrite (bc_len F V zeroF mul dot lc1 lc2 normalize sq v0 c0 p0 p0_in). cbn [length].
  assert (E2 : bc 1 [] ++ [Some (mul (qv 0))] = bc 1 [Some (mul (qv 0))]) by (unfold basis_cells; rewrite <- !app_assoc; reflexivity). rewrite E2.
  rewrite !VS. cbn [bind]. match goal with |- context [vget (?x :: ?l) 0] => change (vget (x :: l) 0) with (Ok x) end. cbn [bind]. replace (L + (1 - 1) + 0) with (L + 0) by lia.
  unfold av, bv, nv. replace (maxit - (1 - 1)) with maxit by lia. cbn [Nat.sub seq map app]. rewrite RP. reflexivity.
Qed.
Theorem eig_solver_ok : 2 <= maxit -> exists m r h', 1 <= m < maxit /\ running F V zeroF isz mul dot lc1 lc2 normalize sq v0 satisfied m /\ outcome m r h' /\ eig_solver maxit dim p0 h0 = Ok (r, h').
Proof.
  intros H. rewrite start_ok by lia. destruct (eig_loop_ok maxit 1) as [m [r [h' [A1 [A2 [A3 A4]]]]]]; try lia. exists m, r, h'. auto.
Qed.
(** too few iterations *)
Theorem eig_solver_0 : maxit = 0 -> eig_solver maxit dim p0 h0 = Ub.
Proof. intros E. rewrite E. unfold Lanczos.eig_solver. rewrite (rd_alive V C _ _ _ Hp0). cbn [bind]. unfold wr. rewrite (rd_alive V C _ _ _ Hp0). reflexivity. Qed.
Theorem eig_solver_1 : maxit = 1 -> vanishes 1 = false -> eig_solver maxit dim p0 h0 = Ub.
Proof.
  intros E EV. pose proof p0_in as HP. rewrite start_ok by lia. rewrite E at 1. cbn [Lanczos.eig_loop]. pose proof (bc_last 1 (mul (qv 0))) as BL. cbn [Nat.sub] in BL. rewrite BL. cbn [bind Nat.add Nat.sub].
  assert (GA : vget (av 1) 0 = Ok (al 0)) by reflexivity. rewrite GA. cbn [bind].
  pose proof (head_ok 1 _ (le_n 1) eq_refl) as HO. cbn [Nat.sub] in HO. rewrite HO. cbn [bind]. rewrite residual_ok.
  unfold wr. rewrite BL. cbn [bind]. change (isz (be 0)) with (vanishes 1). rewrite EV.
  unfold vset at 1. rewrite nv_len by lia. rewrite E. reflexivity.
Qed.
End Eig.
