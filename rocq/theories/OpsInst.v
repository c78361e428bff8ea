(** Complex rational numbers, for the examples of Prop_Ops.v *)
From Coq Require Import List Arith Bool ZArith QArith Qcanon Ring.
Import ListNotations.
Local Open Scope nat_scope.
Definition gq : Type := Qc * Qc.
Definition gre (x : Q) : gq := (Q2Qc x, Q2Qc 0).
Definition g0 : gq := gre 0. Definition g1 : gq := gre 1. Definition ghalf : gq := gre (1 # 2). Definition gim : gq := (Q2Qc 0, Q2Qc 1).
Definition gadd (x y : gq) : gq := (fst x + fst y, snd x + snd y)%Qc.
Definition gmul (x y : gq) : gq := (fst x * fst y - snd x * snd y, fst x * snd y + snd x * fst y)%Qc.
Definition gopp (x : gq) : gq := (- fst x, - snd x)%Qc.
Definition gsub (x y : gq) : gq := (fst x - fst y, snd x - snd y)%Qc.
Definition gconj (x : gq) : gq := (fst x, - snd x)%Qc.
Definition geqb (x y : gq) : bool := Qc_eq_bool (fst x) (fst y) && Qc_eq_bool (snd x) (snd y).
Definition gneg (x : gq) : bool := Qle_bool (fst x) 0 && negb (geqb x g0).
(** numbers of modulus below 10^-3 *)
Definition gsmall (x : gq) : bool := Qle_bool (fst x * fst x + snd x * snd x)%Qc (1 # 1000000).
Lemma g_pair (x y : gq) : fst x = fst y -> snd x = snd y -> x = y.
Proof. destruct x, y. cbn. intros -> ->. auto. Qed.
Lemma g_ring : ring_theory g0 g1 gadd gmul gsub gopp (@eq gq).
Proof.
  constructor; intros; apply g_pair; unfold gadd, gmul, gopp, gsub, g0, g1, gre; cbn [fst snd]; try ring; change (Q2Qc 0) with 0%Qc; change (Q2Qc 1) with 1%Qc; ring.
Qed.
Lemma g_eqb x y : geqb x y = true <-> x = y.
Proof.
  unfold geqb. split.
  - intros H. apply andb_true_iff in H. destruct H as [A B]. apply Qc_eq_bool_correct in A. apply Qc_eq_bool_correct in B. apply g_pair; auto.
  - intros ->. unfold Qc_eq_bool. destruct (Qc_eq_dec (fst y) (fst y)), (Qc_eq_dec (snd y) (snd y)); auto.
Qed.
Lemma g_one : g1 <> g0.
Proof. intros H. discriminate (proj2 (g_eqb g1 g0) H). Qed.
Lemma g_half : gadd ghalf ghalf = g1.
Proof. apply g_eqb. vm_compute. auto. Qed.
Lemma g_im : gmul gim gim = gopp g1.
Proof. apply g_eqb. vm_compute. auto. Qed.
Lemma g_conj x : gconj (gconj x) = x.
Proof. apply g_pair; cbn; ring. Qed.
Lemma g_small_opp x : gsmall (gopp x) = gsmall x.
Proof. unfold gsmall, gopp. cbn [fst snd]. replace (- fst x * - fst x + - snd x * - snd x)%Qc with (fst x * fst x + snd x * snd x)%Qc by ring. auto. Qed.
Lemma g_small_conj x : gsmall (gconj x) = gsmall x.
Proof. unfold gsmall, gconj. cbn [fst snd]. replace (- snd x * - snd x)%Qc with (snd x * snd x)%Qc by ring. auto. Qed.
