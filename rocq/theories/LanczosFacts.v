From Coq Require Import List Arith Lia Bool.
From Verif Require Import Base Lanczos LanczosSpec.
Import ListNotations.

Lemma upd_end : forall A (l : list A) z k v, upd (l ++ repeat z (S k)) (length l) v = l ++ [v] ++ repeat z k.
Proof. induction l as [|x l IH]; intros; cbn; auto. f_equal. apply (IH z k v). Qed.
Lemma map_snoc : forall A (f : nat -> A) n s, map f (seq s (S n)) = map f (seq s n) ++ [f (s + n)].
Proof. intros. rewrite seq_S, map_app. reflexivity. Qed.
Lemma vset_end : forall A (l : list A) z n v k, length l + S n = k -> vset (l ++ repeat z (S n)) (length l) v = Ok (l ++ [v] ++ repeat z n).
Proof. intros. rewrite vset_ok by (rewrite app_length, repeat_length; lia). f_equal. apply upd_end. Qed.
Lemma first_pre : forall A (l : list A) r n, n = length l -> first n (l ++ r) = Ok l.
Proof. intros A l r n ->. unfold first. rewrite app_length. replace (length l <=? length l + length r) with true by (symmetry; apply Nat.leb_le; lia). f_equal. rewrite firstn_app, Nat.sub_diag, firstn_all, firstn_O, app_nil_r. reflexivity. Qed.
Lemma vget_map : forall A (f : nat -> A) n r i s, i < n -> vget (map f (seq s n) ++ r) i = Ok (f (s + i)).
Proof.
  intros A f n r i s H. unfold vget. rewrite nth_error_app1 by (rewrite map_length, seq_length; auto).
  rewrite (map_nth_error f i (seq s n) (d := s + i)); auto. rewrite (nth_error_nth' _ 0) by (rewrite seq_length; auto). rewrite seq_nth by auto. reflexivity.
Qed.

Section Heap.
Variables V C : Type.
Notation heap := (heap V C). Notation rd := (rd V C). Notation free_from := (free_from V C).
Notation cells := (cells V C). Notation arrs := (arrs V C).
Lemma rd_alive : forall p h v, nth_error (cells h) p = Some (Some v) -> rd p h = Ok v.
Proof. intros p h v H. unfold Lanczos.rd. rewrite H. reflexivity. Qed.
Lemma del_alive : forall p h v, nth_error (cells h) p = Some (Some v) -> del V C p h = Ok (mkH _ _ (upd (cells h) p None) (arrs h)).
Proof. intros p h v H. unfold del. rewrite (rd_alive p h v H). reflexivity. Qed.
Lemma free_from_app : forall l r h, free_from (l ++ r) h = bind (free_from l h) (free_from r).
Proof. induction l as [|p l IH]; intros; cbn [app Lanczos.free_from bind]; auto. destruct (delo V C p h); cbn [bind]; auto. Qed.
Lemma free_nulls : forall n h, free_from (repeat None n) h = Ok h.
Proof. induction n; intros; cbn; auto. Qed.
Lemma free_ok : forall ps h, NoDup ps -> (forall p, In p ps -> exists v, nth_error (cells h) p = Some (Some v)) ->
  exists h', free_from (map Some ps) h = Ok h' /\ arrs h' = arrs h /\ length (cells h') = length (cells h) /\
    forall i, nth_error (cells h') i = if in_dec Nat.eq_dec i ps then Some None else nth_error (cells h) i.
Proof.
  induction ps as [|p ps IH]; intros h ND AL.
  - exists h. repeat split; auto.
  - inversion ND as [|? ? N1 N2]. subst. destruct (AL p (or_introl eq_refl)) as [v Hv]. cbn [map Lanczos.free_from delo]. rewrite (del_alive p h v Hv). cbn [bind].
    assert (LP : p < length (cells h)) by (apply nth_error_Some; congruence).
    destruct (IH (mkH _ _ (upd (cells h) p None) (arrs h)) N2) as [h' [A1 [A2 [A3 A4]]]].
    { intros q Hq. destruct (AL q (or_intror Hq)) as [u Hu]. exists u. cbn. rewrite nth_error_upd_other; auto. intros ->. contradiction. }
    exists h'. split; auto. cbn in A2, A3. rewrite upd_length in A3. split; auto. split; auto. intros i. rewrite A4. cbn [Lanczos.cells].
    destruct (in_dec Nat.eq_dec i ps) as [I|I]; destruct (in_dec Nat.eq_dec i (p :: ps)) as [J|J]; auto; try (exfalso; apply J; right; auto; fail).
    + destruct J as [->|J]; [|contradiction]. apply nth_error_upd_same. auto.
    + apply nth_error_upd_other. intros ->. apply J. left. auto.
Qed.
End Heap.

Section Inv.
Variables F V C : Type.
Variables (zeroF : F) (isz : F -> bool).
Variable mul : V -> V.
Variable dot : V -> V -> F.
Variable lc1 : F -> V -> V -> V.
Variable lc2 : F -> V -> F -> V -> V -> V.
Variable normalize : V -> V * F.
Variable off : F -> F.
Variable copy : V -> V.
Hypothesis copy_id : forall v, copy v = v.
Variable v0 : V.
Notation qv := (qv F V zeroF mul dot lc1 lc2 normalize off v0). Notation al := (al F V zeroF mul dot lc1 lc2 normalize off v0). Notation be := (be F V zeroF mul dot lc1 lc2 normalize off v0).
Notation kr := (kr F V zeroF mul dot lc1 lc2 normalize off v0).
Notation als := (als F V zeroF mul dot lc1 lc2 normalize off v0). Notation bes := (bes F V zeroF mul dot lc1 lc2 normalize off v0). Notation qvs := (qvs F V zeroF mul dot lc1 lc2 normalize off v0).
Lemma kr_prev : forall m, snd (fst (kr (S m))) = qv m.
Proof. intros m. unfold LanczosSpec.qv. cbn [LanczosSpec.kr]. destruct (kr m) as [[q q'] n]. reflexivity. Qed.
(** one step of the recurrence, as the loops compute it *)
Definition residual (m : nat) : V := if m =? 0 then lc1 (al m) (qv m) (mul (qv m)) else lc2 (al m) (qv m) (off (be (m - 1))) (qv (m - 1)) (mul (qv m)).
Lemma kr_step : forall m, kr (S m) = (fst (normalize (residual m)), qv m, snd (normalize (residual m))).
Proof.
  intros m. unfold residual. pose proof (kr_prev (m - 1)) as KP. cbn [LanczosSpec.kr]. unfold LanczosSpec.al, LanczosSpec.be. destruct m as [|m].
  - reflexivity.
  - replace (S m - 1) with m in * by lia. cbn [Nat.eqb]. rewrite <- KP. unfold LanczosSpec.qv. destruct (kr (S m)) as [[q q'] n]. reflexivity.
Qed.
Lemma residual_ok : forall m, normalize (residual m) = (qv (S m), be m).
Proof. intros m. unfold LanczosSpec.be, LanczosSpec.qv at 1. rewrite !kr_step. cbn [fst snd]. destruct (normalize (residual m)); reflexivity. Qed.
Variables (c0 : list (option V)) (p0 : nat).
Hypothesis Hp0 : p0 < length c0.
Notation L := (length c0).
Definition ptr (j : nat) : nat := if j =? 0 then p0 else L + (j - 1).
Definition ptrs (n : nat) : list nat := map ptr (seq 0 n).
(** n basis vectors, and the given cells after them *)
Definition basis_cells (n : nat) (r : list (option V)) : list (option V) := upd c0 p0 (Some (qv 0)) ++ map (fun j => Some (qv j)) (seq 1 (n - 1)) ++ r.
Lemma bc_ptr : forall n r j, 1 <= n -> j < n -> nth_error (basis_cells n r) (ptr j) = Some (Some (qv j)).
Proof.
  intros n r j Hn Hj. unfold basis_cells, ptr. destruct (Nat.eqb_spec j 0) as [->|NE].
  - rewrite nth_error_app1 by (rewrite upd_length; auto). apply nth_error_upd_same. auto.
  - rewrite nth_error_app2 by (rewrite upd_length; lia). rewrite upd_length. replace (L + (j - 1) - L) with (j - 1) by lia.
    rewrite nth_error_app1 by (rewrite map_length, seq_length; lia). rewrite (map_nth_error (fun j => Some (qv j)) _ _ (d := j)); auto.
    rewrite (nth_error_nth' _ 0) by (rewrite seq_length; lia). rewrite seq_nth by lia. f_equal. lia.
Qed.
Lemma bc_len : forall n r, length (basis_cells n r) = L + (n - 1) + length r.
Proof. intros. unfold basis_cells. rewrite !app_length, upd_length, map_length, seq_length. lia. Qed.
Lemma bc_after : forall n r k, nth_error (basis_cells n r) (L + (n - 1) + k) = nth_error r k.
Proof.
  intros. unfold basis_cells. rewrite app_assoc, nth_error_app2 by (rewrite app_length, upd_length, map_length, seq_length; lia).
  rewrite app_length, upd_length, map_length, seq_length. f_equal. lia.
Qed.
Lemma bc_snoc : forall n x r, 1 <= n -> basis_cells n (Some (qv n) :: x ++ r) = basis_cells (S n) (x ++ r).
Proof. intros n x r Hn. unfold basis_cells. f_equal. replace (S n - 1) with (S (n - 1)) by lia. rewrite map_snoc, <- app_assoc. cbn [app]. f_equal. f_equal. f_equal. f_equal. lia. Qed.
Lemma bc_upd : forall n x y r, upd (basis_cells n (x :: r)) (L + (n - 1)) y = basis_cells n (y :: r).
Proof.
  intros. unfold basis_cells. rewrite !app_assoc. set (l := _ ++ map _ _). assert (E : L + (n - 1) = length l) by (unfold l; rewrite app_length, upd_length, map_length, seq_length; lia).
  rewrite E. clear. induction l as [|z l IH]; cbn; auto. f_equal. auto.
Qed.
Lemma bc_old : forall n r i, i < L -> i <> p0 -> nth_error (basis_cells n r) i = nth_error c0 i.
Proof. intros n r i Hi Hp. unfold basis_cells. rewrite nth_error_app1 by (rewrite upd_length; auto). apply nth_error_upd_other. auto. Qed.
Lemma ptrs_len : forall n, length (ptrs n) = n.
Proof. intros. unfold ptrs. rewrite map_length, seq_length. auto. Qed.
Lemma ptrs_nodup : forall n, NoDup (ptrs n).
Proof.
  intros n. unfold ptrs. assert (I : forall i j, ptr i = ptr j -> i = j).
  { intros i j. unfold ptr. destruct (Nat.eqb_spec i 0), (Nat.eqb_spec j 0); lia. }
  pose proof (seq_NoDup n 0) as ND. induction ND as [|x l N1 N2 IH]; cbn; constructor; auto. intros H. apply in_map_iff in H. destruct H as [y [E Y]]. apply I in E. subst. contradiction.
Qed.
Lemma in_ptrs : forall i n, In i (ptrs n) <-> exists j, j < n /\ i = ptr j.
Proof. intros. unfold ptrs. rewrite in_map_iff. split; intros [j [A B]]; exists j; [rewrite in_seq in B|rewrite in_seq]; split; auto; lia. Qed.
Definition bsv (n maxit : nat) : list (option nat) := map Some (ptrs n) ++ repeat None (maxit - n).
Notation base := (base V C). Notation base_list := (base_list V C). Notation heap := (heap V C). Notation mkH := (mkH V C).
Lemma bsv_get : forall n maxit i, i < n -> vget (bsv n maxit) i = Ok (Some (ptr i)).
Proof.
  intros. unfold bsv, ptrs. rewrite map_map. rewrite (vget_map _ (fun j => Some (ptr j)) n _ i 0) by auto. reflexivity.
Qed.
Lemma base_ok : forall n maxit i r ar, 1 <= n -> i < n -> base (bsv n maxit) i (mkH (basis_cells n r) ar) = Ok (qv i).
Proof. intros. unfold Lanczos.base. rewrite bsv_get by auto. cbn [bind usep]. apply rd_alive. cbn. apply bc_ptr; auto. Qed.
Lemma base_list_ok : forall n maxit r ar k i, 1 <= n -> i + k <= n -> base_list (bsv n maxit) k i (mkH (basis_cells n r) ar) = Ok (map qv (seq i k)).
Proof. induction k as [|k IH]; intros i Hn Hk; auto. cbn [Lanczos.base_list seq map]. rewrite base_ok by lia. cbn [bind]. rewrite IH by lia. reflexivity. Qed.
Lemma bsv_set : forall n maxit, 1 <= n -> n < maxit -> vset (bsv n maxit) n (Some (L + (n - 1))) = Ok (bsv (S n) maxit).
Proof.
  intros n maxit H1 H. unfold bsv. replace (maxit - n) with (S (maxit - S n)) by lia.
  pose proof (vset_end _ (map Some (ptrs n)) None (maxit - S n) (Some (L + (n - 1))) maxit) as X. rewrite map_length, ptrs_len in X. rewrite X by lia.
  f_equal. rewrite app_assoc. f_equal. unfold ptrs. rewrite map_snoc, map_app. cbn [map app Nat.add]. unfold ptr at 3. destruct (Nat.eqb_spec n 0); [lia|reflexivity].
Qed.
Lemma bsv_set_out : forall n maxit x, maxit <= n -> length (bsv n maxit) = n -> vset (bsv n maxit) n x = Ub.
Proof. intros n maxit x H HL. unfold vset. rewrite HL. replace (n <? n) with false by (symmetry; apply Nat.ltb_ge; lia). auto. Qed.
(** the basis vectors and one more cell freed, the result behind it stays *)
Lemma free_all_ok : forall n maxit x v ar ev ar', 1 <= n -> dela V C ev (mkH (basis_cells n [Some x; Some v]) ar) = Ok (mkH (basis_cells n [Some x; Some v]) ar') ->
  exists h', free_all V C ev (bsv n maxit) (L + (n - 1)) (mkH (basis_cells n [Some x; Some v]) ar) = Ok h' /\ free_n V C ev (bsv n maxit) n (L + (n - 1)) (mkH (basis_cells n [Some x; Some v]) ar) = Ok h' /\
    arrs V C h' = ar' /\ (forall i, i < L -> i <> p0 -> nth_error (cells V C h') i = nth_error c0 i) /\ nth_error (cells V C h') p0 = Some None /\
    nth_error (cells V C h') (L + n) = Some (Some v) /\ (forall i w, L <= i -> nth_error (cells V C h') i = Some (Some w) -> i = L + n).
Proof.
  intros n maxit x v ar ev ar' Hn HE. unfold free_all, free_n. rewrite HE. cbn [bind].
  destruct (free_ok V C (ptrs n) (mkH (basis_cells n [Some x; Some v]) ar') (ptrs_nodup n)) as [h1 [A1 [A2 [A3 A4]]]].
  { intros p Hp. apply in_ptrs in Hp. destruct Hp as [j [Hj ->]]. exists (qv j). cbn. apply bc_ptr; auto. }
  assert (NI : ~ In (L + (n - 1)) (ptrs n)). { intros I. apply in_ptrs in I. destruct I as [j [Hj E]]. unfold ptr in E. destruct (Nat.eqb_spec j 0); lia. }
  assert (NJ : ~ In (L + n) (ptrs n)). { intros I. apply in_ptrs in I. destruct I as [j [Hj E]]. unfold ptr in E. destruct (Nat.eqb_spec j 0); lia. }
  assert (X1 : nth_error (cells V C h1) (L + (n - 1)) = Some (Some x)). { rewrite A4. destruct (in_dec Nat.eq_dec (L + (n - 1)) (ptrs n)); [contradiction|]. cbn. rewrite <- (Nat.add_0_r (L + (n - 1))). rewrite bc_after. auto. }
  assert (FA : free_from V C (bsv n maxit) (mkH (basis_cells n [Some x; Some v]) ar') = Ok h1).
  { unfold bsv. rewrite free_from_app, A1. cbn [bind]. apply free_nulls. }
  rewrite FA. cbn [bind]. unfold bsv. rewrite first_pre by (rewrite map_length, ptrs_len; auto). cbn [bind]. rewrite A1. cbn [bind].
  rewrite (del_alive V C _ _ _ X1). eexists. split; [reflexivity|]. split; [reflexivity|]. cbn. split; [rewrite A2; reflexivity|].
  assert (LN : L + (n - 1) < length (cells V C h1)). { rewrite A3. cbn. rewrite bc_len. cbn. lia. }
  split.
  { intros i Hi Hp. rewrite nth_error_upd_other by lia. rewrite A4. destruct (in_dec Nat.eq_dec i (ptrs n)) as [I|I]; [|cbn; apply bc_old; auto].
    apply in_ptrs in I. destruct I as [j [Hj E]]. unfold ptr in E. destruct (Nat.eqb_spec j 0); lia. }
  split. { rewrite nth_error_upd_other by lia. rewrite A4. destruct (in_dec Nat.eq_dec p0 (ptrs n)) as [I|I]; auto. exfalso. apply I. apply in_ptrs. exists 0. split; [lia|reflexivity]. }
  split. { rewrite nth_error_upd_other by lia. rewrite A4. destruct (in_dec Nat.eq_dec (L + n) (ptrs n)); [contradiction|]. cbn. replace (L + n) with (L + (n - 1) + 1) by lia. rewrite bc_after. auto. }
  intros i w Hi Hw. destruct (Nat.eq_dec i (L + n)) as [|NE]; auto. exfalso. rewrite nth_error_upd in Hw.
  destruct (Nat.eqb_spec (L + (n - 1)) i) as [<-|N2]; [rewrite (proj2 (Nat.ltb_lt _ _) LN) in Hw; discriminate|]. cbn [andb] in Hw. rewrite A4 in Hw.
  destruct (in_dec Nat.eq_dec i (ptrs n)) as [I|I]; [discriminate|]. cbn in Hw.
  destruct (Nat.le_gt_cases (L + (n - 1)) i) as [G|G].
  - replace i with (L + (n - 1) + (i - (L + (n - 1)))) in Hw by lia. rewrite bc_after in Hw. assert (i - (L + (n - 1)) >= 2) by lia. destruct (i - (L + (n - 1))) as [|[|[|k]]]; try lia; discriminate.
  - apply I. apply in_ptrs. exists (i - L + 1). split; [lia|]. unfold ptr. destruct (Nat.eqb_spec (i - L + 1) 0); lia.
Qed.
End Inv.
