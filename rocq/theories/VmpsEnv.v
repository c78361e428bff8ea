(** Environments are blocks; the effective Hamiltonians of VMPS are the projected Hamiltonian. *)
From Coq Require Import List Arith Lia Bool Ring.
From Verif Require Import Base FiniteMps FmpsSpec FmpsFacts EffHam EffHamSpec EffHamFacts Legs VmpsLocal VmpsSpec.
Import ListNotations.

Lemma deq_refl : forall d, deq d d = true.
Proof. intros. apply Nat.eqb_refl. Qed.
(** evaluates the operations on tensors whose legs are known *)
Ltac legs1 := cbv -[deq fused_dim fused_1 fused_2 sum_dim in_first in_second in_range FmpsSpec.sumn].
Ltac legs := legs1; repeat (rewrite deq_refl; legs1).

Section Facts.
Variables (R : Type) (r0 r1 : R) (radd rmul rsub : R -> R -> R) (ropp : R -> R).
Variable Rth : ring_theory r0 r1 radd rmul rsub ropp (@eq R).
Variable conj : R -> R.
Hypothesis conj0 : conj r0 = r0.
Hypothesis conj1 : conj r1 = r1.
Hypothesis conj_add : forall x y, conj (radd x y) = radd (conj x) (conj y).
Hypothesis conj_mul : forall x y, conj (rmul x y) = rmul (conj x) (conj y).
Add Ring Rring : Rth.
Infix "+r" := radd (at level 50, left associativity).
Infix "*r" := rmul (at level 40, left associativity).
Notation gten := (gten R). Notation mkG := (mkG R). Notation ge := (ge R). Notation gd := (gd R).
Notation sumn := (sumn R r0 radd). Notation lsum := (lsum R r0 radd).
Notation ten_of := (ten_of R). Notation site_of := (site_of R).
Notation mps_mat := (mps_mat R r0 r1 radd rmul). Notation mpo_mat := (mpo_mat R r0 r1 radd rmul).
Notation left_block := (left_block R r0 r1 radd rmul conj). Notation right_block := (right_block R r0 r1 radd rmul conj).
Notation lsum_ext := (lsum_ext R r0 radd). Notation lsum_swap := (lsum_swap R r0 r1 radd rmul rsub ropp Rth).
Notation lsum_mul_l := (lsum_mul_l R r0 r1 radd rmul rsub ropp Rth). Notation lsum_mul_r := (lsum_mul_r R r0 r1 radd rmul rsub ropp Rth).
Notation sumn_lsum := (sumn_lsum R r0 r1 radd rmul rsub ropp Rth).
Notation pull2 := (pull2 R r0 r1 radd rmul rsub ropp Rth). Notation pull3 := (pull3 R r0 r1 radd rmul rsub ropp Rth).
Notation part := (part R).

(** *** elements of the results *)
Lemma update_lenv_el : forall (e t w : gten) D M p D' M', gd e = [D; M; D] -> gd t = [D; p; D'] -> gd w = [M; p; p; M'] ->
  exists e', update_lenv R r0 radd rmul conj e t w = Ok e' /\ gd e' = [D'; M'; D'] /\ forall a' j a, ge e' [a'; j; a] =
    sumn D (fun l' => sumn p (fun s' => conj (ge t [l'; s'; a']) *r sumn M (fun i => sumn p (fun s => sumn D (fun l => ge e [l'; i; l] *r ge t [l; s; a]) *r ge w [i; s; s'; j])))).
Proof.
  intros [de e] [dt t] [dw w] D M p D' M' He Ht Hw. cbn in He, Ht, Hw. subst de dt dw.
  eexists. split; [legs; reflexivity|]. split; [reflexivity|]. intros. legs. reflexivity.
Qed.
Lemma update_renv_el : forall (e t w : gten) D M p D' M', gd e = [D; M; D] -> gd t = [D'; p; D] -> gd w = [M'; p; p; M] ->
  exists e', update_renv R r0 radd rmul conj e t w = Ok e' /\ gd e' = [D'; M'; D'] /\ forall a' j a, ge e' [a'; j; a] =
    sumn p (fun s => sumn D (fun b => sumn p (fun s' => sumn M (fun k => sumn D (fun b' => conj (ge t [a'; s'; b']) *r ge e [b'; k; b]) *r ge w [j; s; s'; k])) *r ge t [a; s; b])).
Proof.
  intros [de e] [dt t] [dw w] D M p D' M' He Ht Hw. cbn in He, Ht, Hw. subst de dt dw.
  eexists. split; [legs; reflexivity|]. split; [reflexivity|]. intros. legs. reflexivity.
Qed.
Lemma mul2_el : forall (h0 h1 h2 h3 x : gten) D0 M0 p1 M1 p2 M2 D3, gd h0 = [D0; M0; D0] -> gd h1 = [M0; p1; p1; M1] -> gd h2 = [M1; p2; p2; M2] -> gd h3 = [D3; M2; D3] -> gd x = [D0; p1; p2; D3] ->
  exists y, mul2 R r0 radd rmul h0 h1 h2 h3 x = Ok y /\ gd y = [D0; p1; p2; D3] /\ forall a' s1' s2' b', ge y [a'; s1'; s2'; b'] =
    sumn M2 (fun k => sumn D3 (fun b => sumn M1 (fun j => sumn p2 (fun s2 => sumn M0 (fun i => sumn p1 (fun s1 =>
      sumn D0 (fun a => ge h0 [a'; i; a] *r ge x [a; s1; s2; b]) *r ge h1 [i; s1; s1'; j])) *r ge h2 [j; s2; s2'; k])) *r ge h3 [b'; k; b])).
Proof.
  intros [? h0] [? h1] [? h2] [? h3] [? x] D0 M0 p1 M1 p2 M2 D3 E0 E1 E2 E3 E4. cbn in E0, E1, E2, E3, E4. subst.
  eexists. split; [legs; reflexivity|]. split; [reflexivity|]. intros. legs. reflexivity.
Qed.
Lemma mul1_el : forall (h0 h1 h2 x : gten) D0 M0 p M1 D2, gd h0 = [D0; M0; D0] -> gd h1 = [M0; p; p; M1] -> gd h2 = [D2; M1; D2] -> gd x = [D0; p; D2] ->
  exists y, mul1 R r0 radd rmul h0 h1 h2 x = Ok y /\ gd y = [D0; p; D2] /\ forall a' s' b', ge y [a'; s'; b'] =
    sumn M1 (fun k => sumn D2 (fun b => sumn M0 (fun i => sumn p (fun s => sumn D0 (fun a => ge h0 [a'; i; a] *r ge x [a; s; b]) *r ge h1 [i; s; s'; k])) *r ge h2 [b'; k; b])).
Proof.
  intros [? h0] [? h1] [? h2] [? x] D0 M0 p M1 D2 E0 E1 E2 E4. cbn in E0, E1, E2, E4. subst.
  eexists. split; [legs; reflexivity|]. split; [reflexivity|]. intros. legs. reflexivity.
Qed.

Ltac to_lsum := match goal with |- ?l = _ => match l with context [FmpsSpec.sumn R r0 radd ?n ?f] => rewrite (sumn_lsum n f) end end.
Ltac flat' := repeat (first [to_lsum | rewrite lsum_mul_l | rewrite lsum_mul_r | (eapply lsum_ext; intros ? ?)]); reflexivity.

(** *** environments *)
Definition is_lenv (e : gten) (ts ws : list gten) (D M : nat) : Prop := gd e = [D; M; D] /\
  forall a' i a, a' < D -> i < M -> a < D -> ge e [a'; i; a] = left_block (map ten_of ts) (map site_of ws) i a a'.
Definition is_renv (e : gten) (ts ws : list gten) (D M : nat) : Prop := gd e = [D; M; D] /\
  forall a' i a, a' < D -> i < M -> a < D -> ge e [a'; i; a] = right_block (map ten_of ts) (map site_of ws) i a a'.

Lemma ten_dims : forall t a p b, gd t = [a; p; b] -> d0 (ten_of t) = a /\ d1 (ten_of t) = p /\ d2 (ten_of t) = b.
Proof. intros t a p b H. cbn. rewrite H. auto. Qed.
Lemma site_dims : forall w m p q n, gd w = [m; p; q; n] -> mrows (site_of w) = m /\ mcols (site_of w) = n.
Proof. intros w m p q n H. cbn. rewrite H. auto. Qed.
Lemma update_lenv_ok : forall e ts ws t w D M p D' M', fit R 1 (map ten_of ts) D -> wfit R 1 (map site_of ws) M -> length ws = length ts -> is_lenv e ts ws D M ->
  gd t = [D; p; D'] -> gd w = [M; p; p; M'] ->
  exists e', update_lenv R r0 radd rmul conj e t w = Ok e' /\ is_lenv e' (ts ++ [t]) (ws ++ [w]) D' M'.
Proof.
  intros e ts ws t w D M p D' M' HF HW HL [Ed Ee] Et Ew.
  destruct (update_lenv_el e t w D M p D' M' Ed Et Ew) as [e' [E1 [E2 E3]]]. exists e'. split; [exact E1|]. split; [exact E2|].
  intros a' j a Ha' Hj Ha. rewrite !map_app. cbn [map].
  destruct (ten_dims t _ _ _ Et) as [T0 [T1 T2]]. destruct (site_dims w _ _ _ _ Ew) as [W0 W3].
  rewrite (left_block_snoc R r0 r1 radd rmul rsub ropp Rth conj conj0 conj_add conj_mul (map ten_of ts) (map site_of ws) (ten_of t) (site_of w) D M j a a');
    rewrite ?T0, ?T1, ?T2, ?W0, ?W3; auto; [|rewrite !map_length; auto].
  clear - Rth Ee E3 Ha' Hj Ha. revert Ee. generalize (left_block (map ten_of ts) (map site_of ws)). intros LB Ee.
  rewrite E3, sumn_lsum. apply lsum_ext. intros l' Il'. rewrite sumn_lsum. apply lsum_ext. intros s' _. cbn [el].
  match goal with |- ?c *r ?x = ?y *r ?d => transitivity (x *r c); [ring|]; apply (f_equal (fun z => z *r c)) end.
  symmetry. etransitivity; [flat'|]. cbv beta. etransitivity; [apply pull2|]. rewrite sumn_lsum. apply lsum_ext. intros i Ii.
  etransitivity; [apply lsum_swap|]. rewrite sumn_lsum. apply lsum_ext. intros s _. rewrite sumn_lsum, lsum_mul_r. apply lsum_ext. intros l Il.
  apply in_seq in Il, Ii, Il'. rewrite Ee by lia. unfold mval, Legs.ten_of, VmpsSpec.site_of. cbn [ent el]. ring.
Qed.
Lemma update_renv_ok : forall e ts ws t w D M p D' M', length ws = length ts -> is_renv e ts ws D M ->
  gd t = [D'; p; D] -> gd w = [M'; p; p; M] ->
  exists e', update_renv R r0 radd rmul conj e t w = Ok e' /\ is_renv e' (t :: ts) (w :: ws) D' M'.
Proof.
  intros e ts ws t w D M p D' M' HL [Ed Ee] Et Ew.
  destruct (update_renv_el e t w D M p D' M' Ed Et Ew) as [e' [E1 [E2 E3]]]. exists e'. split; [exact E1|]. split; [exact E2|].
  intros a' j a Ha' Hj Ha. cbn [map].
  destruct (ten_dims t _ _ _ Et) as [T0 [T1 T2]]. destruct (site_dims w _ _ _ _ Ew) as [W0 W3].
  rewrite (right_block_cons R r0 r1 radd rmul rsub ropp Rth conj conj0 conj_add conj_mul (map ten_of ts) (map site_of ws) (ten_of t) (site_of w) M j a a');
    rewrite ?T0, ?T1, ?T2, ?W0, ?W3; auto; [|rewrite !map_length; auto].
  clear - Rth Ee E3 Ha' Hj Ha. revert Ee. generalize (right_block (map ten_of ts) (map site_of ws)). intros RB Ee.
  rewrite E3. etransitivity; [flat'|]. cbv beta. symmetry. etransitivity; [flat'|]. cbv beta.
  (* order: s' b' s b k; wanted: s b s' k b' *)
  etransitivity; [apply pull2|]. apply lsum_ext. intros s _.
  etransitivity; [apply pull2|]. apply lsum_ext. intros b Ib.
  apply lsum_ext. intros s' _. etransitivity; [apply lsum_swap|]. apply lsum_ext. intros k Ik. apply lsum_ext. intros b' Ib'.
  apply in_seq in Ib, Ib', Ik. rewrite Ee by lia. unfold mval, Legs.ten_of, VmpsSpec.site_of. cbn [ent el]. ring.
Qed.
Lemma trivial_l : is_lenv (trivial_env R r0 r1 1 1) [] [] 1 1.
Proof.
  split; [reflexivity|]. intros a' i a H1 H2 H3. replace a' with 0 by lia. replace i with 0 by lia. replace a with 0 by lia. cbn. rewrite conj1. ring.
Qed.
Lemma trivial_r : is_renv (trivial_env R r0 r1 1 1) [] [] 1 1.
Proof.
  split; [reflexivity|]. intros a' i a H1 H2 H3. replace a' with 0 by lia. replace i with 0 by lia. replace a with 0 by lia. cbn. rewrite conj1. ring.
Qed.
Lemma part_len : forall x m ts ws y n, part x m ts ws y n -> length ws = length ts.
Proof. intros x m ts ws y n [H _]. induction H; cbn; auto. Qed.
Lemma lenvs_from_ok : forall ts2 ws2 ts ws e D M D' M', fit R 1 (map ten_of ts) D -> wfit R 1 (map site_of ws) M -> length ws = length ts -> is_lenv e ts ws D M ->
  part D M ts2 ws2 D' M' -> exists e', lenvs_from R r0 radd rmul conj e ts2 ws2 = Ok e' /\ is_lenv e' (ts ++ ts2) (ws ++ ws2) D' M'.
Proof.
  induction ts2 as [|t ts2 IH]; intros ws2 ts ws e D M D' M' HF HW HL HE [HS [HF2 HW2]].
  - inversion HS; subst. cbn in HF2, HW2. subst D' M'. exists e. rewrite !app_nil_r. auto.
  - inversion HS as [|? w ? ws2' S1 S2]; subst. destruct S1 as [a [p [b [m [n [Et Ew]]]]]]. cbn [map] in HF2, HW2. destruct HF2 as [F1 F2], HW2 as [W1 W2].
    cbn in F1, W1. rewrite Et in F1. rewrite Ew in W1. cbn in F1, W1. subst a m.
    destruct (update_lenv_ok e ts ws t w D M p b n HF HW HL HE Et Ew) as [e1 [A1 A2]]. cbn [lenvs_from]. rewrite A1. cbn [bind].
    cbn in F2, W2. rewrite Et in F2. rewrite Ew in W2. cbn [nth] in F2, W2.
    destruct (IH ws2' (ts ++ [t]) (ws ++ [w]) e1 b n D' M') as [e' [B1 B2]].
    + rewrite map_app. eapply fit_app; eauto. cbn. rewrite Et. cbn. auto.
    + rewrite map_app. eapply wfit_app; eauto. cbn. rewrite Ew. cbn. auto.
    + rewrite !app_length. cbn. lia.
    + exact A2.
    + split; auto.
    + exists e'. rewrite <- !app_assoc in B2. auto.
Qed.
Lemma left_env_ok : forall ts ws D M, part 1 1 ts ws D M -> exists e, lenvs_from R r0 radd rmul conj (trivial_env R r0 r1 1 1) ts ws = Ok e /\ is_lenv e ts ws D M.
Proof. intros ts ws D M H. apply (lenvs_from_ok ts ws [] [] _ 1 1 D M); cbn; auto. apply trivial_l. Qed.
Lemma right_env_ok : forall ts ws D M, part D M ts ws 1 1 -> exists e, renvs_from R r0 radd rmul conj (trivial_env R r0 r1 1 1) ts ws = Ok e /\ is_renv e ts ws D M.
Proof.
  induction ts as [|t ts IH]; intros ws D M [HS [HF HW]].
  - inversion HS; subst. cbn in HF, HW. subst D M. eexists. split; [reflexivity|]. apply trivial_r.
  - assert (HL : length ws = length (t :: ts)) by (apply (part_len D M (t :: ts) ws 1 1); split; auto).
    inversion HS as [|? w ? ws' S1 S2]; subst. destruct S1 as [a [p [b [m [n [Et Ew]]]]]]. cbn [map] in HF, HW. destruct HF as [F1 F2], HW as [W1 W2].
    cbn in F1, W1, F2, W2. rewrite Et in F1, F2. rewrite Ew in W1, W2. cbn [nth] in F1, W1, F2, W2. subst a m.
    destruct (IH ws' b n) as [e [A1 A2]]; [split; auto|]. cbn [renvs_from]. rewrite A1. cbn [bind].
    apply (update_renv_ok e ts ws' t w b n p D M); auto.
Qed.
End Facts.
