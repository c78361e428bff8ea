(** TruncateMPS: the loop and the whole call. *)
From Coq Require Import List Arith Lia Bool ZArith Reals Lra Ring.
From Verif Require Import Base FiniteMps FmpsSpec FmpsFacts FmpsTruth EffHam EffHamSpec EffHamFacts ChainSpec ChainFacts ChainOne MeasureFacts Cx GVec DmrgStep EndFloor TruncMps TruncMpsSpec TruncMpsMath.
Import ListNotations.
Local Open Scope nat_scope.

Notation cnorm2 := (ChainSpec.norm2 cx c0 c1 cadd cmul cconj).
Notation holdsc := (holds cx).

(** what is printed per bond *)
Definition printed_ok (terr : real) (Dmax : nat) (o : real * nat) : Prop := (0 <= fst o < 1)%R /\ snd o <= Dmax /\ (snd o < Dmax -> (fst o <= terr)%R).

Lemma norm_sv_ok : forall s e, (0 <= e < 1)%R -> sum_sq s = (1 - e)%R -> normalize_sv s = Ok (map (fun x => (x / sqrt (1 - e))%R) s).
Proof.
  intros s e He E. unfold normalize_sv. rewrite E. destruct (Req_EM_T (sqrt (1 - e)) 0) as [Z|]; [|reflexivity].
  apply sqrt_eq_0 in Z; lra.
Qed.

Section Loop.
Variables (svd : real -> nat -> nat -> cten -> cten * list real * cmat * real) (terr : real) (Dmin Dmax : nat).
Hypothesis SV : good_svd terr Dmin Dmax svd.
Notation site := (trunc_site svd terr Dmin Dmax).

Lemma svd_at : forall a, frob a = c1 -> truncated_svd terr Dmax a (svd terr Dmin Dmax a).
Proof. intros a H. apply SV. apply frob_nz. rewrite H. cbn. lra. Qed.

Ltac stp := first [rewrite (touch_ok cx) by (cbn [tens types]; rewrite ?upd_length; auto; lia)
  | rewrite (put_ok cx) by (cbn [tens types]; rewrite ?upd_length; auto; lia)]; cbn [bind tens types center].

Lemma site_ok : forall st out l a b r u s vt e, holdsc st (l ++ a :: b :: r) -> d2 a = d0 b -> frob a = c1 -> svd terr Dmin Dmax a = (u, s, vt, e) ->
  exists m b' ty, contract_svt (map (fun x => (x / sqrt (1 - e))%R) s) vt = Ok m /\ contract_mt cx c0 cadd cmul m b = Ok b' /\
    site (length l) (st, out) = Ok (mkFmps (map Some (l ++ u :: b' :: r)) ty (-1)%Z, out ++ [(e, length s)]) /\
    length ty = length (types st) /\ nth_error ty (length l) = Some NONE /\ nth_error ty (S (length l)) = Some NONE /\
    (forall j, nth_error (types st) j = Some NONE -> nth_error ty j = Some NONE).
Proof.
  intros st out l a b r u s vt e [HT HY] HD HN EV. pose proof (svd_at a HN) as V. rewrite EV in V. destruct V as [V1 V2 V3 V4 [V5 V5'] V6]. destruct V1 as [U0 [U1 [U2 [U3 U4]]]].
  assert (LT : length (tens st) = length l + S (S (length r))) by (rewrite HT, map_length, app_length; reflexivity).
  assert (LY : length (types st) = length l + S (S (length r))) by (rewrite HY, app_length; reflexivity).
  assert (C1 : exists m, contract_svt (map (fun x => (x / sqrt (1 - e))%R) s) vt = Ok m /\ n0 m = length s /\ n1 m = d2 a).
  { unfold contract_svt. rewrite map_length, U3, Nat.eqb_refl. eexists. split; [reflexivity|]. cbn [n0 n1]. auto. }
  destruct C1 as [m [C1 [M0 M1]]].
  assert (C2 : exists b', contract_mt cx c0 cadd cmul m b = Ok b') by (unfold contract_mt; rewrite M1, HD, Nat.eqb_refl; eauto). destruct C2 as [b' C2].
  exists m, b'. eexists. split; [exact C1|]. split; [exact C2|]. unfold trunc_site. stp.
  erewrite (deref_ok cx) by (cbn [tens]; rewrite HT, map_app; cbn [map]; rewrite <- (map_length Some l); apply nth_mid). cbn [bind]. rewrite EV.
  assert (SQ : sum_sq s = (1 - e)%R). { unfold sum_sq. rewrite V5'. fold (frob a). rewrite HN. cbn [fst c1]. ring. }
  rewrite (norm_sv_ok s e V5 SQ). cbn [bind]. stp. stp. rewrite C1. cbn [bind]. stp.
  erewrite (deref_ok cx).
  2:{ cbn [tens]. rewrite HT, map_app. cbn [map]. rewrite <- (map_length Some l). rewrite upd_app. apply nth_mid1. }
  cbn [bind]. rewrite C2. cbn [bind]. stp.
  split. { do 3 f_equal. rewrite HT, !map_app. cbn [map]. rewrite <- (map_length Some l). rewrite upd_app, upd_app1. reflexivity. }
  split; [rewrite !upd_length; reflexivity|].
  assert (UN : forall (ty : list cano) i j, i < length ty -> nth_error (upd ty i NONE) j = if i =? j then Some NONE else nth_error ty j).
  { induction ty as [|t ty IH]; intros [|i] [|j] Hi; cbn in *; auto; try lia. apply IH. lia. }
  split; [|split]; [| |intros j Hj]; repeat (rewrite UN by (rewrite ?upd_length; lia)).
  - replace (length l + 1 =? length l) with false by (symmetry; apply Nat.eqb_neq; lia). rewrite Nat.eqb_refl. reflexivity.
  - replace (length l + 1 =? S (length l)) with true by (symmetry; apply Nat.eqb_eq; lia). reflexivity.
  - destruct (_ =? _); [reflexivity|]. destruct (_ =? _); [reflexivity|]. exact Hj.
Qed.

Lemma loop_ok : forall psi r l a st out p, holdsc st (l ++ a :: r) -> center st = (-1)%Z -> (forall j, j <= length l -> nth_error (types st) j = Some NONE) ->
  cfit 1 l (d0 a) -> cfit (d2 a) r 1 -> Forall lcan l -> Forall rcan r -> frob a = c1 -> projects psi l (a :: r) (d0 a) p ->
  exists st' ts' z out', for_loop (length l) (length r) site (st, out) = Ok (st', out ++ out') /\ holdsc st' (l ++ ts' ++ [z]) /\
    length ts' = length r /\ length out' = length r /\ cfit (d0 a) (ts' ++ [z]) 1 /\ dims (ts' ++ [z]) = dims (a :: r) /\ Forall lcan ts' /\ map (@d2 cx) ts' = map snd out' /\
    Forall (printed_ok terr Dmax) out' /\ center st' = (-1)%Z /\ Forall (eq NONE) (types st') /\
    lsum (configs (dims (l ++ ts' ++ [z]))) (fun c => cmul (cconj (mm (l ++ ts' ++ [z]) c 0 0)) (psi c)) = cre (p * kept (map fst out')) /\
    cnorm2 (l ++ ts' ++ [z]) = c1.
Proof.
  intros psi. induction r as [|b r IH]; intros l a st out p HH HC HT HF HF2 HL HR HN HP.
  - exists st, [], a, []. cbn [for_loop length app map]. rewrite app_nil_r. cbn [fit] in HF2.
    split; [reflexivity|]. split; [exact HH|]. do 2 (split; [reflexivity|]). split; [cbn; auto|]. split; [reflexivity|]. split; [constructor|]. split; [reflexivity|]. split; [constructor|]. split; [exact HC|]. split.
    + apply Forall_forall. intros c Hc. apply In_nth_error in Hc. destruct Hc as [j Hj]. assert (j < length (types st)) by (apply nth_error_Some; congruence).
      rewrite (proj2 HH), app_length in H. cbn in H. rewrite HT in Hj by lia. congruence.
    + split.
      * rewrite (end_math psi l a p HF HF2 HN HP). cbn [kept fold_right]. f_equal. ring.
      * pose proof (norm2_one cx c0 c1 cadd cmul csub copp cx_ring cconj cconj0 cconj_add cconj_mul l [] a HF) as E. cbn [app] in E. rewrite E; [exact HN| |].
        { apply (left_basis_ok cx c0 c1 cadd cmul csub copp cx_ring cconj cconj0 cconj1 cconj_add cconj_mul); auto. }
        { rewrite HF2. apply (right_basis_ok cx c0 c1 cadd cmul csub copp cx_ring cconj cconj0 cconj1 cconj_add cconj_mul); [reflexivity|constructor]. }
  - cbn [fit] in HF2. destruct HF2 as [HF2 HF3]. inversion HR as [|? ? HR1 HR2]; subst.
    destruct (svd terr Dmin Dmax a) as [[[u s] vt] e] eqn:EV.
    destruct (site_ok st out l a b r u s vt e HH (eq_sym HF2) HN EV) as [m [b' [ty [C1 [C2 [ES [T1 [T2 [T3 T4]]]]]]]]].
    pose proof (svd_at a HN) as V. rewrite EV in V.
    destruct (step_math terr Dmax psi l a b r p u s vt e m b' HF (eq_sym HF2) HR1 HN HP V C1 C2) as [P1 P2].
    destruct V as [V1 V2 V3 V4 [V5 V5'] V6]. destruct V1 as [U0 [U1 [U2 [U3 U4]]]].
    destruct (contract_mt_dims cx c0 cadd cmul _ _ _ C2) as [E0 [E1 [E2 _]]].
    assert (M0 : n0 m = length s). { unfold contract_svt in C1. destruct (_ =? _); [|discriminate]. injection C1 as <-. cbn [n0]. apply map_length. }
    assert (HF' : cfit 1 (l ++ [u]) (d0 b')).
    { eapply EffHamFacts.fit_app; [exact HF|]. cbn. split; [exact U0|]. congruence. }
    assert (HH' : holdsc (mkFmps (map Some (l ++ u :: b' :: r)) ty (-1)%Z) ((l ++ [u]) ++ b' :: r)).
    { rewrite <- app_assoc. split; [reflexivity|]. cbn [types]. rewrite T1, (proj2 HH), !app_length. reflexivity. }
    destruct (IH (l ++ [u]) b' _ (out ++ [(e, length s)]) (p * sqrt (1 - e))%R HH' eq_refl) as [st' [ts' [z [out' [A1 [A2 [A3 [A4 [A5 [A6 [A7 [A8 [A9 [A10 [A11 [A12 A13]]]]]]]]]]]]]]]].
    + intros j Hj. rewrite app_length in Hj. cbn in Hj. destruct (Nat.eq_dec j (S (length l))) as [->|]; [exact T3|]. apply T4, HT. lia.
    + exact HF'.
    + rewrite E2. exact HF3.
    + apply Forall_app. split; [exact HL|]. constructor; [exact V2|constructor].
    + exact HR2.
    + exact P2.
    + rewrite E0, M0. exact P1.
    + exists st', (u :: ts'), z, ((e, length s) :: out'). rewrite <- !app_assoc in A1, A2, A12, A13. cbn [app] in *.
      cbn [length for_loop]. rewrite ES. cbn [bind]. rewrite app_length in A1. cbn [length] in A1. rewrite Nat.add_1_r in A1.
      split; [exact A1|]. split; [exact A2|]. split; [cbn; congruence|]. split; [cbn; congruence|]. split; [cbn [fit]; split; [exact U0|rewrite <- app_comm_cons || idtac]; rewrite U2, <- M0, <- E0; exact A5|].
      split; [cbn [map]; rewrite U1; f_equal; rewrite A6; cbn [map]; f_equal; exact E1|].
      split; [constructor; assumption|]. split; [cbn [map snd]; f_equal; assumption|]. split; [constructor; [split; [exact V5|exact V6]|exact A9]|].
      split; [exact A10|]. split; [exact A11|]. split; [|exact A13]. rewrite A12. cbn [map fst kept fold_right]. f_equal. unfold kept. ring.
Qed.
End Loop.
