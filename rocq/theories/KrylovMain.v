(** What the eigenvalue solver and the exponential return, given the eigensystems of the tridiagonal matrices. *)
From Coq Require Import List Arith Bool Lia Ring Ring_theory.
From Verif Require Import LanczosSpec LanczosEig Krylov KrylovSpec KrylovFacts.
Import ListNotations.

Lemma combine_map : forall A B C (f : A -> B) (g : A -> C) l, List.combine (map f l) (map g l) = map (fun x => (f x, g x)) l.
Proof. intros A B C f g. induction l as [|x l IH]; [reflexivity|]. cbn [map List.combine]. rewrite IH. reflexivity. Qed.
Lemma nth_map_seq : forall A (f : nat -> A) n j d, j < n -> nth j (map f (seq 0 n)) d = f j.
Proof. intros A f n j d H. rewrite (nth_indep _ d (f 0)) by (rewrite map_length, seq_length; exact H). rewrite map_nth, seq_nth by exact H. reflexivity. Qed.
Lemma trid_sym : forall F (f0 : F) d e i j, trid f0 d e i j = trid f0 d e j i.
Proof. intros. unfold trid. rewrite (Nat.eqb_sym j i). destruct (Nat.eqb_spec i j) as [->|]; [reflexivity|]. destruct (Nat.eqb_spec j (i + 1)); destruct (Nat.eqb_spec i (j + 1)); try lia; reflexivity. Qed.

Section Main.
Variables F K V : Type.
Variables (f0 f1 : F) (fadd fmul fsub : F -> F -> F) (fopp : F -> F) (k0 k1 : K) (kadd kmul ksub : K -> K -> K) (kopp : K -> K).
Variables (r : F -> K) (conj : K -> K) (le : F -> F -> Prop).
Variable ip : V -> V -> K.
Variables (isz : F -> bool) (mul : V -> V) (dot : V -> V -> F) (lc1 : F -> V -> V -> V) (lc2 : F -> V -> F -> V -> V -> V).
Variables (normalize : V -> V * F) (off rt : F -> F).
Hypothesis SC : scalars f0 f1 fadd fmul fsub fopp k0 k1 kadd kmul ksub kopp r conj le.
Hypothesis HE : hermitian f0 k0 k1 kadd kmul ksub r conj ip isz mul dot lc1 lc2 normalize off rt.
Variable v0 : V.
Hypothesis v0_nz : isz (snd (normalize v0)) = false.
Let Kth := sc_k _ _ _ _ _ _ _ _ _ _ _ _ _ _ _ SC.
Let Fth := sc_f _ _ _ _ _ _ _ _ _ _ _ _ _ _ _ SC.
Add Ring KK : Kth.
Add Ring FF : Fth.
Notation "x + y" := (kadd x y). Notation "x * y" := (kmul x y). Notation "x - y" := (ksub x y).
Notation "a =? b" := (Nat.eqb a b) (at level 70).
Notation qv := (qv F V f0 mul dot lc1 lc2 normalize off v0).
Notation al := (al F V f0 mul dot lc1 lc2 normalize off v0).
Notation be := (be F V f0 mul dot lc1 lc2 normalize off v0).
Notation als := (als F V f0 mul dot lc1 lc2 normalize off v0).
Notation bes := (bes F V f0 mul dot lc1 lc2 normalize off v0).
Notation qvs := (qvs F V f0 mul dot lc1 lc2 normalize off v0).
Notation sm := (sumk K k0 kadd).
Notation smf := (sumk F f0 fadd).
Notation T n := (trid f0 (als n) (bes n)).
Notation d_ i j := (if i =? j then k1 else k0).
Ltac sx := apply sm_ext; intros.
Lemma als_len : forall n, length (als n) = n.
Proof. intros. unfold LanczosSpec.als. rewrite map_length, seq_length. reflexivity. Qed.

Section Sys.
Variable n : nat.
Hypothesis NV : forall j, Nat.add j 1 < n -> isz (be j) = false.
Hypothesis n_pos : 0 < n.
Variables dv z : list F.
Hypothesis ES : eigensystem f0 f1 fadd fmul le (als n) (bes n) dv z.
Notation zz i j := (nth (Nat.add (Nat.mul i n) j) z f0).
Notation dd j := (nth j dv f0).
Let ln := als_len n.
Lemma rot : forall s t : nat -> K, sm n (fun i => sm n (fun j => r (zz i j) * s j) * conj (sm n (fun k => r (zz i k) * t k))) = sm n (fun j => s j * conj (t j)).
Proof.
  intros s t.
  transitivity (sm n (fun i => sm n (fun j => sm n (fun k => (r (zz i j) * r (zz i k)) * (s j * conj (t k)))))).
  { sx. rewrite (conj_sm F K f0 f1 fadd fmul fsub fopp k0 k1 kadd kmul ksub kopp r conj le SC), (sm_mul_r K k0 k1 kadd kmul ksub kopp Kth). sx. rewrite (sm_mul_l K k0 k1 kadd kmul ksub kopp Kth). sx.
    rewrite (conj_mul F K f0 f1 fadd fmul fsub fopp k0 k1 kadd kmul ksub kopp r conj le SC), (conj_r F K f0 f1 fadd fmul fsub fopp k0 k1 kadd kmul ksub kopp r conj le SC). ring. }
  rewrite (sm_swap K k0 k1 kadd kmul ksub kopp Kth). sx. rewrite (sm_swap K k0 k1 kadd kmul ksub kopp Kth).
  rewrite <- (sm_delta' K k0 k1 kadd kmul ksub kopp Kth n i (fun k => s i * conj (t k))) by assumption. sx.
  rewrite <- (sm_mul_r K k0 k1 kadd kmul ksub kopp Kth). f_equal.
  rewrite <- (r_d F K f0 f1 fadd fmul fsub fopp k0 k1 kadd kmul ksub kopp r conj le SC). pose proof (es_cols _ _ _ _ _ _ _ _ _ ES i i0) as C. rewrite ln in C. rewrite <- C by assumption.
  rewrite (r_sm F K f0 f1 fadd fmul fsub fopp k0 k1 kadd kmul ksub kopp r conj le SC). sx. symmetry. apply (r_mul F K f0 f1 fadd fmul fsub fopp k0 k1 kadd kmul ksub kopp r conj le SC).
Qed.
Lemma rot_T : forall (s : nat -> K) i, i < n -> sm n (fun k => r (T n i k) * sm n (fun j => r (zz k j) * s j)) = sm n (fun j => r (zz i j) * (r (dd j) * s j)).
Proof.
  intros s i Hi.
  transitivity (sm n (fun k => sm n (fun j => (r (T n i k) * r (zz k j)) * s j))).
  { sx. rewrite (sm_mul_l K k0 k1 kadd kmul ksub kopp Kth). sx. ring. }
  rewrite (sm_swap K k0 k1 kadd kmul ksub kopp Kth). sx. rewrite <- (sm_mul_r K k0 k1 kadd kmul ksub kopp Kth).
  pose proof (es_vec _ _ _ _ _ _ _ _ _ ES i i0) as C. rewrite ln in C. specialize (C Hi H).
  apply (f_equal r) in C. rewrite (r_sm F K f0 f1 fadd fmul fsub fopp k0 k1 kadd kmul ksub kopp r conj le SC), (r_mul F K f0 f1 fadd fmul fsub fopp k0 k1 kadd kmul ksub kopp r conj le SC) in C.
  rewrite (sm_ext K k0 kadd n _ (fun i1 => r (fmul (T n i i1) (zz i1 i0)))) by (intros; symmetry; apply (r_mul F K f0 f1 fadd fmul fsub fopp k0 k1 kadd kmul ksub kopp r conj le SC)).
  rewrite C. ring.
Qed.
(** the first diagonal element in terms of the eigenvalues *)
Lemma first_diag : nth 0 (als n) f0 = smf n (fun j => fmul (dd j) (fmul (zz 0 j) (zz 0 j))).
Proof.
  transitivity (smf n (fun k => fmul (if k =? 0 then f1 else f0) (T n 0 k))).
  { rewrite (sm_delta F f0 f1 fadd fmul fsub fopp Fth n 0 (fun k => T n 0 k)) by exact n_pos. reflexivity. }
  transitivity (smf n (fun k => smf n (fun j => fmul (fmul (T n 0 k) (zz k j)) (zz 0 j)))).
  { sx. pose proof (es_rows _ _ _ _ _ _ _ _ _ ES i 0) as C. rewrite ln in C. rewrite <- C by assumption. rewrite (sm_mul_r F f0 f1 fadd fmul fsub fopp Fth). sx. ring. }
  rewrite (sm_swap F f0 f1 fadd fmul fsub fopp Fth). sx. rewrite <- (sm_mul_r F f0 f1 fadd fmul fsub fopp Fth).
  pose proof (es_vec _ _ _ _ _ _ _ _ _ ES 0 i) as C. rewrite ln in C. rewrite C by assumption. ring.
Qed.
Lemma lowest : le (dd 0) (nth 0 (als n) f0).
Proof.
  rewrite first_diag. replace (dd 0) with (smf n (fun j => fmul (dd 0) (fmul (zz 0 j) (zz 0 j)))).
  - assert (G : forall m, m <= n -> le (smf m (fun j => fmul (dd 0) (fmul (zz 0 j) (zz 0 j)))) (smf m (fun j => fmul (dd j) (fmul (zz 0 j) (zz 0 j))))); [|apply G; lia].
    induction m as [|m IH]; intros Hm; cbn [sumk]; [apply (sc_refl _ _ _ _ _ _ _ _ _ _ _ _ _ _ _ SC)|].
    apply (sc_lea _ _ _ _ _ _ _ _ _ _ _ _ _ _ _ SC); [apply IH; lia|]. apply (sc_les _ _ _ _ _ _ _ _ _ _ _ _ _ _ _ SC). apply (es_low _ _ _ _ _ _ _ _ _ ES). rewrite ln. lia.
  - rewrite <- (sm_mul_l F f0 f1 fadd fmul fsub fopp Fth). pose proof (es_rows _ _ _ _ _ _ _ _ _ ES 0 0) as C. rewrite ln in C. rewrite C by assumption. cbn [Nat.eqb]. ring.
Qed.
Section Rot.
Variables (w : V) (s : nat -> K).
Hypothesis W : forall x, ip w x = sm n (fun i => sm n (fun j => r (zz i j) * s j) * ip (qv i) x).
Lemma rot_norm : ip w w = sm n (fun j => s j * conj (s j)).
Proof.
  rewrite (comb_norm F K V f0 f1 fadd fmul fsub fopp k0 k1 kadd kmul ksub kopp r conj le ip isz mul dot lc1 lc2 normalize off rt SC HE v0 v0_nz n NV w _ W). apply rot.
Qed.
Lemma rot_energy : ip (mul w) w = sm n (fun j => (r (dd j) * s j) * conj (s j)).
Proof.
  rewrite (comb_energy F K V f0 f1 fadd fmul fsub fopp k0 k1 kadd kmul ksub kopp r conj le ip isz mul dot lc1 lc2 normalize off rt SC HE v0 v0_nz n NV w _ W).
  rewrite <- (rot (fun j => r (dd j) * s j)). sx. f_equal. apply rot_T. assumption.
Qed.
(** an invariant space *)
Lemma rot_mul : isz (be (Nat.sub n 1)) = true -> forall x, ip (mul w) x = sm n (fun i => sm n (fun j => r (zz i j) * (r (dd j) * s j)) * ip (qv i) x).
Proof.
  intros HZ x. rewrite (comb_mul F K V f0 k0 k1 kadd kmul ksub r conj ip isz mul dot lc1 lc2 normalize off rt HE v0 n w _ W).
  transitivity (sm n (fun i => sm n (fun k => (r (T n k i) * sm n (fun j => r (zz i j) * s j)) * ip (qv k) x))).
  { sx. rewrite (row_in F K V f0 f1 fadd fmul fsub fopp k0 k1 kadd kmul ksub kopp r conj le ip isz mul dot lc1 lc2 normalize off rt SC HE v0 n i).
    - rewrite (sm_mul_l K k0 k1 kadd kmul ksub kopp Kth). sx. rewrite trid_sym. ring.
    - destruct (Nat.eq_dec i (Nat.sub n 1)) as [->|]; [right; split; [lia|exact HZ]|left; lia]. }
  rewrite (sm_swap K k0 k1 kadd kmul ksub kopp Kth). sx. rewrite <- (sm_mul_r K k0 k1 kadd kmul ksub kopp Kth). f_equal. apply rot_T. assumption.
Qed.
End Rot.
End Sys.

(** *** the eigenvalue solver *)
Section Eig.
Variable stev : list F -> list F -> list F * list F.
Variable comb : list F -> list V -> V.
Hypothesis comb_ok : forall c l x, ip (comb c l) x = suml K k0 kadd (fun p => r (fst p) * ip (snd p) x) (List.combine c l).
Notation tri_e := (gs_eng F f0 stev).
Notation tri_v := (gs_vec F f0 stev).
Notation energy := (energy F V f0 mul dot lc1 lc2 normalize off v0 tri_e).
Notation ground := (ground F V F f0 off mul dot lc1 lc2 normalize tri_v comb v0).
Variable n : nat.
Hypothesis NV : forall j, Nat.add j 1 < n -> isz (be j) = false.
Hypothesis n_pos : 0 < n.
Hypothesis ES : n <> 1 -> let (dv, z) := stev (als n) (bes n) in eigensystem f0 f1 fadd fmul le (als n) (bes n) dv z.
Lemma ground_ok : ip (ground n) (ground n) = k1 /\ ip (mul (ground n)) (ground n) = r (energy n) /\ le (energy n) (al 0) /\
  (isz (be (Nat.sub n 1)) = true -> forall x, ip (mul (ground n)) x = r (energy n) * ip (ground n) x).
Proof.
  unfold LanczosEig.ground, LanczosSpec.energy. destruct (Nat.eqb_spec n 1) as [->|N1].
  - split; [apply (qv_unit F K V f0 k0 k1 kadd kmul ksub r conj ip isz mul dot lc1 lc2 normalize off rt HE v0 v0_nz); auto|].
    split; [symmetry; apply (al_ok F K V f0 k0 k1 kadd kmul ksub r conj ip isz mul dot lc1 lc2 normalize off rt HE v0)|]. split; [apply (sc_refl _ _ _ _ _ _ _ _ _ _ _ _ _ _ _ SC)|].
    intros HZ x. rewrite (row_in F K V f0 f1 fadd fmul fsub fopp k0 k1 kadd kmul ksub kopp r conj le ip isz mul dot lc1 lc2 normalize off rt SC HE v0 1 0) by (right; auto).
    cbn [sumk]. change (T 1 0 0) with (al 0). ring.
  - specialize (ES N1). unfold gs_eng, gs_vec. destruct (stev (als n) (bes n)) as [dv z]. cbn [fst snd].
    set (s := fun j => if j =? 0 then k1 else k0).
    assert (W : forall x, ip (comb (map (fun i => nth (Nat.mul i (length (als n))) z f0) (seq 0 (length (als n)))) (qvs n)) x = sm n (fun i => sm n (fun j => r (nth (Nat.add (Nat.mul i n) j) z f0) * s j) * ip (qv i) x)).
    { intros x. rewrite comb_ok, als_len. unfold LanczosSpec.qvs. rewrite combine_map, (sm_suml K k0 k1 kadd kmul ksub kopp Kth). sx. cbn [fst snd Nat.add]. f_equal.
      rewrite (sm_ext K k0 kadd n _ (fun j => (if j =? 0 then k1 else k0) * r (nth (Nat.add (Nat.mul i n) j) z f0))) by (intros; unfold s; ring).
      rewrite (sm_delta K k0 k1 kadd kmul ksub kopp Kth n 0 (fun j => r (nth (Nat.add (Nat.mul i n) j) z f0))) by exact n_pos. rewrite Nat.add_0_r. reflexivity. }
    split; [|split; [|split]].
    + rewrite (rot_norm n NV dv z ES _ s W). change (fun j => s j * conj (s j)) with (fun j => (if j =? 0 then k1 else k0) * conj (s j)). rewrite (sm_delta K k0 k1 kadd kmul ksub kopp Kth n 0 (fun j => conj (s j))) by exact n_pos. unfold s. cbn [Nat.eqb].
      apply (conj_1 F K f0 f1 fadd fmul fsub fopp k0 k1 kadd kmul ksub kopp r conj le SC).
    + rewrite (rot_energy n NV dv z ES _ s W).
      rewrite (sm_ext K k0 kadd n _ (fun j => (if j =? 0 then k1 else k0) * (r (nth j dv f0) * conj (s j)))) by (intros; unfold s; ring).
      rewrite (sm_delta K k0 k1 kadd kmul ksub kopp Kth n 0 (fun j => r (nth j dv f0) * conj (s j))) by exact n_pos. unfold s. cbn [Nat.eqb].
      rewrite (conj_1 F K f0 f1 fadd fmul fsub fopp k0 k1 kadd kmul ksub kopp r conj le SC). ring.
    + pose proof (lowest n n_pos dv z ES) as L. rewrite (nth_al F V f0 mul dot lc1 lc2 normalize off v0) in L by exact n_pos. exact L.
    + intros HZ x. rewrite (rot_mul n n_pos dv z ES _ s W HZ), W, (sm_mul_l K k0 k1 kadd kmul ksub kopp Kth). sx.
      transitivity ((r (nth 0 dv f0) * sm n (fun j => r (nth (Nat.add (Nat.mul i n) j) z f0) * s j)) * ip (qv i) x); [|ring]. f_equal. rewrite (sm_mul_l K k0 k1 kadd kmul ksub kopp Kth). sx.
      unfold s. destruct (Nat.eqb_spec i0 0) as [->|]; ring.
Qed.
End Eig.

(** *** the exponential *)
Section Exp.
Variable stev : list F -> list F -> list F * list F.
Variable ph : F -> K.
Hypothesis ph_unit : forall x, ph x * conj (ph x) = k1.
Variable comb : list K -> list V -> V.
Hypothesis comb_ok : forall c l x, ip (comb c l) x = suml K k0 kadd (fun p => fst p * ip (snd p) x) (List.combine c l).
Variable phase : F -> F -> V -> V.
(** the factor of the result: the initial norm *)
Variable fac : F.
Hypothesis phase_ok : forall n a q x, ip (phase n a q) x = (r fac * ph a) * ip q x.
Notation tri_x := (expme1 F K f0 k0 kadd kmul r ph stev).
Variable n : nat.
Hypothesis NV : forall j, Nat.add j 1 < n -> isz (be j) = false.
Hypothesis n_pos : 0 < n.
Hypothesis ES : n <> 1 -> let (dv, z) := stev (als n) (bes n) in eigensystem f0 f1 fadd fmul le (als n) (bes n) dv z.
Notation evolved := (if n =? 1 then phase (snd (normalize v0)) (al 0) (qv 0) else comb (vscale F K kmul r fac (tri_x (als n) (bes n))) (qvs n)).
(** with the eigenvectors u_j of the projected operator and their weights *)
Lemma evolved_modes : exists (ds : nat -> F) (us : nat -> nat -> K) (g : nat -> K),
  (forall x, ip evolved x = sm n (fun i => sm n (fun j => us i j * (r fac * (ph (ds j) * g j))) * ip (qv i) x)) /\
  (forall j, j < n -> us 0 j = g j) /\
  (forall i, i < n -> sm n (fun j => us i j * g j) = d_ i 0) /\
  ip evolved evolved = r fac * r fac /\ ip (mul evolved) evolved = (r fac * r fac) * r (al 0) /\
  (isz (be (Nat.sub n 1)) = true -> forall j, j < n -> forall i, i < n -> sm n (fun k => r (T n i k) * us k j) = r (ds j) * us i j).
Proof.
  destruct (Nat.eqb_spec n 1) as [->|N1].
  - exists (fun _ => al 0), (fun _ _ => k1), (fun _ => k1).
    pose proof (qv_unit F K V f0 k0 k1 kadd kmul ksub r conj ip isz mul dot lc1 lc2 normalize off rt HE v0 v0_nz 0 (or_introl eq_refl)) as U.
    pose proof (al_ok F K V f0 k0 k1 kadd kmul ksub r conj ip isz mul dot lc1 lc2 normalize off rt HE v0 0) as A.
    set (p := phase (snd (normalize v0)) (al 0) (qv 0)).
    assert (P : forall x, ip p x = (r fac * ph (al 0)) * ip (qv 0) x) by (intros; apply phase_ok).
    assert (P' : forall x, ip x p = (r fac * conj (ph (al 0))) * ip x (qv 0)).
    { intros x. rewrite <- (ip_sym F K V f0 k0 k1 kadd kmul ksub r conj ip isz mul dot lc1 lc2 normalize off rt HE), P, !(conj_mul F K f0 f1 fadd fmul fsub fopp k0 k1 kadd kmul ksub kopp r conj le SC).
      rewrite (conj_r F K f0 f1 fadd fmul fsub fopp k0 k1 kadd kmul ksub kopp r conj le SC), (ip_sym F K V f0 k0 k1 kadd kmul ksub r conj ip isz mul dot lc1 lc2 normalize off rt HE). reflexivity. }
    split; [intros; rewrite P; cbn [sumk]; ring|]. split; [reflexivity|]. split; [intros i Hi; replace i with 0 by lia; cbn [sumk Nat.eqb]; ring|].
    split; [|split].
    + rewrite P, P', U. transitivity ((r fac * r fac) * (ph (al 0) * conj (ph (al 0)))); [ring|]. rewrite ph_unit. ring.
    + rewrite (mul_sym F K V f0 k0 k1 kadd kmul ksub r conj ip isz mul dot lc1 lc2 normalize off rt HE), P, <- (mul_sym F K V f0 k0 k1 kadd kmul ksub r conj ip isz mul dot lc1 lc2 normalize off rt HE), P', <- A.
      transitivity ((r fac * r fac) * (ph (al 0) * conj (ph (al 0))) * r (al 0)); [ring|]. rewrite ph_unit. ring.
    + intros _ j Hj i Hi. replace i with 0 by lia. cbn [sumk]. change (T 1 0 0) with (al 0). ring.
  - specialize (ES N1). unfold expme1. destruct (stev (als n) (bes n)) as [dv z]. rewrite als_len.
    set (s := fun j => r fac * (ph (nth j dv f0) * r (nth j z f0))).
    set (w := comb _ _).
    assert (W : forall x, ip w x = sm n (fun i => sm n (fun j => r (nth (Nat.add (Nat.mul i n) j) z f0) * s j) * ip (qv i) x)).
    { intros x. unfold w. rewrite comb_ok. unfold LanczosSpec.qvs, vscale. rewrite map_map, combine_map, (sm_suml K k0 k1 kadd kmul ksub kopp Kth). sx. cbn [fst snd Nat.add]. f_equal.
      rewrite (sm_fold K k0 kadd n (fun j => r (nth (Nat.add (Nat.mul i n) j) z f0) * nth j (map (fun i => ph (nth i dv f0) * r (nth i z f0)) (seq 0 n)) k0)), (sm_mul_l K k0 k1 kadd kmul ksub kopp Kth). sx.
      rewrite nth_map_seq by assumption. unfold s. ring. }
    exists (fun j => nth j dv f0), (fun i j => r (nth (Nat.add (Nat.mul i n) j) z f0)), (fun j => r (nth j z f0)).
    assert (S2 : forall j, s j * conj (s j) = (r fac * r fac) * (r (nth j z f0) * r (nth j z f0))).
    { intros j. unfold s. rewrite !(conj_mul F K f0 f1 fadd fmul fsub fopp k0 k1 kadd kmul ksub kopp r conj le SC), !(conj_r F K f0 f1 fadd fmul fsub fopp k0 k1 kadd kmul ksub kopp r conj le SC).
      transitivity ((r fac * r fac) * (r (nth j z f0) * r (nth j z f0)) * (ph (nth j dv f0) * conj (ph (nth j dv f0)))); [ring|]. rewrite ph_unit. ring. }
    split; [exact W|]. split; [reflexivity|]. split.
    { intros i Hi. rewrite <- (r_d F K f0 f1 fadd fmul fsub fopp k0 k1 kadd kmul ksub kopp r conj le SC). pose proof (es_rows _ _ _ _ _ _ _ _ _ ES i 0) as C. rewrite als_len in C. rewrite <- C by assumption.
      rewrite (r_sm F K f0 f1 fadd fmul fsub fopp k0 k1 kadd kmul ksub kopp r conj le SC). sx. rewrite (r_mul F K f0 f1 fadd fmul fsub fopp k0 k1 kadd kmul ksub kopp r conj le SC). reflexivity. }
    split; [|split].
    + rewrite (rot_norm n NV dv z ES _ s W). rewrite (sm_ext K k0 kadd n _ (fun j => (r fac * r fac) * r (fmul (nth j z f0) (nth j z f0)))) by (intros; rewrite S2, (r_mul F K f0 f1 fadd fmul fsub fopp k0 k1 kadd kmul ksub kopp r conj le SC); reflexivity).
      rewrite <- (sm_mul_l K k0 k1 kadd kmul ksub kopp Kth), <- (r_sm F K f0 f1 fadd fmul fsub fopp k0 k1 kadd kmul ksub kopp r conj le SC).
      pose proof (es_rows _ _ _ _ _ _ _ _ _ ES 0 0) as C. rewrite als_len in C. cbn [Nat.mul Nat.add Nat.eqb] in C. rewrite C by assumption. rewrite (sc_1 _ _ _ _ _ _ _ _ _ _ _ _ _ _ _ SC). ring.
    + rewrite (rot_energy n NV dv z ES _ s W). rewrite <- (nth_al F V f0 mul dot lc1 lc2 normalize off v0 n 0) by exact n_pos. rewrite (first_diag n n_pos dv z ES).
      rewrite (r_sm F K f0 f1 fadd fmul fsub fopp k0 k1 kadd kmul ksub kopp r conj le SC), (sm_mul_l K k0 k1 kadd kmul ksub kopp Kth). sx. rewrite !(r_mul F K f0 f1 fadd fmul fsub fopp k0 k1 kadd kmul ksub kopp r conj le SC).
      cbn [Nat.mul Nat.add]. transitivity (r (nth i dv f0) * (s i * conj (s i))); [ring|]. rewrite S2. ring.
    + intros _ j Hj i Hi. pose proof (es_vec _ _ _ _ _ _ _ _ _ ES i j) as C. rewrite als_len in C. specialize (C Hi Hj). apply (f_equal r) in C.
      rewrite (r_sm F K f0 f1 fadd fmul fsub fopp k0 k1 kadd kmul ksub kopp r conj le SC), (r_mul F K f0 f1 fadd fmul fsub fopp k0 k1 kadd kmul ksub kopp r conj le SC) in C. rewrite <- C. sx.
      rewrite (r_mul F K f0 f1 fadd fmul fsub fopp k0 k1 kadd kmul ksub kopp r conj le SC). reflexivity.
Qed.
(** v0 splits into eigenvectors w_j, and the result is the sum of the evolved ones *)
Lemma evolved_exact : isz (be (Nat.sub n 1)) = true -> fac = snd (normalize v0) ->
  exists (ds : nat -> F) (ws : nat -> V),
  (forall x, ip v0 x = sm n (fun j => ip (ws j) x)) /\
  (forall j, j < n -> forall x, ip (mul (ws j)) x = r (ds j) * ip (ws j) x) /\
  (forall x, ip evolved x = sm n (fun j => ph (ds j) * ip (ws j) x)).
Proof.
  intros HZ HF. destruct evolved_modes as [ds [us [g [W [G0 [G1 [_ [_ G2]]]]]]]]. specialize (G2 HZ).
  exists ds, (fun j => comb (map (fun i => r fac * (g j * us i j)) (seq 0 n)) (qvs n)).
  assert (C : forall j x, ip (comb (map (fun i => r fac * (g j * us i j)) (seq 0 n)) (qvs n)) x = sm n (fun i => (r fac * (g j * us i j)) * ip (qv i) x)).
  { intros j x. rewrite comb_ok. unfold LanczosSpec.qvs. rewrite combine_map, (sm_suml K k0 k1 kadd kmul ksub kopp Kth). reflexivity. }
  split; [|split].
  - intros x. rewrite (he_norm _ _ _ _ _ _ _ _ _ _ _ _ _ _ _ _ _ HE), <- HF.
    transitivity (sm n (fun i => d_ i 0 * (r fac * ip (qv i) x))).
    { rewrite (sm_delta K k0 k1 kadd kmul ksub kopp Kth n 0 (fun i => r fac * ip (qv i) x)) by exact n_pos. reflexivity. }
    rewrite (sm_ext K k0 kadd n (fun j => ip _ x) _ (fun j _ => C j x)). rewrite (sm_swap K k0 k1 kadd kmul ksub kopp Kth). sx. rewrite <- G1 by assumption.
    rewrite (sm_mul_r K k0 k1 kadd kmul ksub kopp Kth). sx. ring.
  - intros j Hj x. rewrite (comb_mul F K V f0 k0 k1 kadd kmul ksub r conj ip isz mul dot lc1 lc2 normalize off rt HE v0 n _ _ (C j)). rewrite C.
    transitivity (sm n (fun i => sm n (fun k => (r (T n k i) * us i j) * (r fac * g j * ip (qv k) x)))).
    { sx. rewrite (row_in F K V f0 f1 fadd fmul fsub fopp k0 k1 kadd kmul ksub kopp r conj le ip isz mul dot lc1 lc2 normalize off rt SC HE v0 n i).
      - rewrite (sm_mul_l K k0 k1 kadd kmul ksub kopp Kth). sx. rewrite trid_sym. ring.
      - destruct (Nat.eq_dec i (Nat.sub n 1)) as [->|]; [right; split; [lia|exact HZ]|left; lia]. }
    rewrite (sm_swap K k0 k1 kadd kmul ksub kopp Kth), (sm_mul_l K k0 k1 kadd kmul ksub kopp Kth). sx. rewrite <- (sm_mul_r K k0 k1 kadd kmul ksub kopp Kth), G2 by assumption. ring.
  - intros x. rewrite W. rewrite (sm_ext K k0 kadd n (fun j => ph (ds j) * ip _ x) (fun j => sm n (fun i => ph (ds j) * ((r fac * (g j * us i j)) * ip (qv i) x)))) by (intros j _; rewrite C, (sm_mul_l K k0 k1 kadd kmul ksub kopp Kth); reflexivity).
    rewrite (sm_swap K k0 k1 kadd kmul ksub kopp Kth). sx. rewrite (sm_mul_r K k0 k1 kadd kmul ksub kopp Kth). sx. ring.
Qed.
Lemma init_norm : let n0 := snd (normalize v0) in ip v0 v0 = r n0 * r n0 /\ ip (mul v0) v0 = (r n0 * r n0) * r (al 0).
Proof.
  cbv zeta. pose proof (qv_unit F K V f0 k0 k1 kadd kmul ksub r conj ip isz mul dot lc1 lc2 normalize off rt HE v0 v0_nz 0 (or_introl eq_refl)) as U.
  pose proof (al_ok F K V f0 k0 k1 kadd kmul ksub r conj ip isz mul dot lc1 lc2 normalize off rt HE v0 0) as A. unfold LanczosSpec.qv in U, A. cbn [LanczosSpec.kr fst] in U, A.
  set (q := fst (normalize v0)) in *. set (n0 := snd (normalize v0)).
  assert (P : forall x, ip v0 x = r n0 * ip q x) by (intros; apply (he_norm _ _ _ _ _ _ _ _ _ _ _ _ _ _ _ _ _ HE)).
  assert (P' : forall x, ip x v0 = r n0 * ip x q).
  { intros x. rewrite <- (ip_sym F K V f0 k0 k1 kadd kmul ksub r conj ip isz mul dot lc1 lc2 normalize off rt HE), P, (conj_mul F K f0 f1 fadd fmul fsub fopp k0 k1 kadd kmul ksub kopp r conj le SC).
    rewrite (conj_r F K f0 f1 fadd fmul fsub fopp k0 k1 kadd kmul ksub kopp r conj le SC), (ip_sym F K V f0 k0 k1 kadd kmul ksub r conj ip isz mul dot lc1 lc2 normalize off rt HE). reflexivity. }
  split; [rewrite P, P', U; ring|].
  rewrite (mul_sym F K V f0 k0 k1 kadd kmul ksub r conj ip isz mul dot lc1 lc2 normalize off rt HE), P, <- (mul_sym F K V f0 k0 k1 kadd kmul ksub r conj ip isz mul dot lc1 lc2 normalize off rt HE), P', A. ring.
Qed.
End Exp.
End Main.
