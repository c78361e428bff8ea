From Coq Require Import List Arith Lia Bool.
From Verif Require Import Base SiteVecModel.
Import ListNotations.
Local Open Scope nat_scope.

Section Sites.
Variables (Q A : Type).
Variables (qz : Q) (qadd : Q -> Q -> Q) (qneg : Q -> Q) (qeqb : Q -> Q -> bool).
Hypothesis add_neg : forall q, qadd (qneg q) q = qz.
Hypothesis neg_add : forall q, qadd q (qneg q) = qz.
Hypothesis eqb_ok : forall a b, qeqb a b = true <-> a = b.
Variables (a0 a1 : A).
Variable dbg : bool.
Notation index := (index Q).
Notation write2 := (write2 Q A qadd qneg qeqb).
Notation gen_id := (gen_id Q A qadd qneg qeqb a0 a1).
Notation gen_ids := (gen_ids Q A qadd qneg qeqb a0 a1).
Notation sv_of := (sv_of Q A qadd qneg qeqb a0 a1 dbg).
Notation sv_uniform := (sv_uniform Q A qadd qneg qeqb a0 a1 dbg).
Notation idim := (idim Q). Notation inverse := (inverse Q). Notation set_out := (set_out Q).
Notation t_legs := (t_legs Q A). Notation t_div := (t_div Q A). Notation t_el := (t_el Q A).
Notation sv_size := (sv_size Q A). Notation sv_sites := (sv_sites Q A). Notation sv_ids := (sv_ids Q A).

Definition is_id (x : index) (t : ten2 Q A) : Prop :=
  t_legs t = (inverse x, x) /\ (0 < idim x -> t_div t = Some qz) /\ forall i j, i < idim x -> j < idim x -> t_el t i j = if i =? j then a1 else a0.

Lemma qn_at_some l : forall i, i < sdim Q l -> exists q, qn_at Q l i = Some q.
Proof. induction l as [|[q d] l IH]; intros i H; cbn [sdim qn_at] in *; [lia|]. destruct (Nat.ltb_spec i d); [eauto|]. apply IH. lia. Qed.
Lemma gen_id_ok x : exists t, gen_id x = Ok t /\ is_id x t.
Proof.
  assert (G : forall n s t, s + n = idim x -> t_legs t = (inverse x, x) -> (s = 0 -> t_div t = None) -> (0 < s -> t_div t = Some qz) ->
    (forall i j, t_el t i j = if (i =? j) && (i <? s) then a1 else a0) ->
    exists t', for_loop s n (fun i t => write2 i i a1 t) t = Ok t' /\ is_id x t').
  { induction n as [|n IH]; intros s t HS HL HZ HP HE.
    - exists t. split; auto. split; auto. split; [intros; apply HP; lia|]. intros i j Hi Hj. rewrite HE. destruct (i =? j); auto. destruct (Nat.ltb_spec i s); auto; lia.
    - cbn [for_loop]. assert (W : exists t', write2 s s a1 t = Ok t' /\ t_legs t' = (inverse x, x) /\ t_div t' = Some qz /\ forall i j, t_el t' i j = if (i =? s) && (j =? s) then a1 else t_el t i j).
      { unfold SiteVecModel.write2. rewrite HL. cbn [fst snd]. unfold leg_qn, SiteVecModel.inverse. cbn [fst snd]. destruct (qn_at_some (snd x) s) as [q HQ]; [unfold SiteVecModel.idim in HS; lia|]. rewrite HQ. cbn [option_map].
        assert (Z : qadd ((match flip (fst x) with OUT => fun q => q | IN => qneg end) q) ((match fst x with OUT => fun q => q | IN => qneg end) q) = qz) by (destruct (fst x); cbn; auto).
        rewrite Z. destruct s as [|s]; [rewrite HZ by lia|rewrite HP by lia; rewrite (proj2 (eqb_ok qz qz) eq_refl)]; eexists; (split; [reflexivity|]); cbn; repeat split; auto. }
      destruct W as (t' & W1 & W2 & W3 & W4). rewrite W1. cbn [bind]. apply IH; auto; try lia. intros i j. rewrite W4, HE.
      destruct (Nat.eqb_spec i s), (Nat.eqb_spec j s), (Nat.eqb_spec i j), (Nat.ltb_spec i s), (Nat.ltb_spec i (S s)); cbn; auto; subst; lia. }
  apply (G (idim x) 0); auto; try lia. intros i j. cbn. rewrite andb_false_r. auto.
Qed.
Lemma nth_snoc {X} (l : list X) x i : nth_error (l ++ [x]) i = if i =? length l then Some x else nth_error l i.
Proof.
  destruct (Nat.eqb_spec i (length l)) as [->|H]; [rewrite nth_error_app2, Nat.sub_diag by lia; auto|].
  destruct (Nat.lt_ge_cases i (length l)); [apply nth_error_app1; auto|]. rewrite nth_error_app2 by lia. destruct (i - length l) eqn:X0; [lia|]. rewrite (proj2 (nth_error_None l i)) by lia. destruct n; auto.
Qed.
Lemma gen_ids_ok sites : exists ids, gen_ids (length sites) sites = Ok ids /\ Forall2 is_id sites ids.
Proof.
  assert (G : forall l2 l1 acc, Forall2 is_id l1 acc -> exists ids, for_loop (length l1) (length l2) (fun i l => let! x := vget (l1 ++ l2) i in let! t := gen_id x in Ok (l ++ [t])) acc = Ok ids /\ Forall2 is_id (l1 ++ l2) ids).
  { induction l2 as [|x l2 IH]; intros l1 acc HF; [exists acc; rewrite app_nil_r; auto|]. cbn [length for_loop]. unfold vget at 1. rewrite nth_error_app2, Nat.sub_diag by lia. cbn [nth_error bind].
    destruct (gen_id_ok x) as (t & T1 & T2). rewrite T1. cbn [bind]. specialize (IH (l1 ++ [x]) (acc ++ [t])). rewrite app_length, <- app_assoc in IH. cbn [length app] in IH. rewrite Nat.add_1_r in IH. apply IH. apply Forall2_app; auto. }
  exact (G sites [] [] (Forall2_nil _)).
Qed.
Lemma outs_ok : forall l2 l1, for_loop (length l1) (length l2) (fun i s => let! x := vget (l1 ++ l2) i in Ok (s ++ [set_out x])) (map set_out l1) = Ok (map set_out (l1 ++ l2)).
Proof.
  induction l2 as [|x l2 IH]; intros l1; [rewrite app_nil_r; auto|]. cbn [length for_loop]. unfold vget at 1. rewrite nth_error_app2, Nat.sub_diag by lia. cbn [nth_error bind].
  specialize (IH (l1 ++ [x])). rewrite app_length, <- app_assoc, map_app in IH. cbn [length app map] in IH. rewrite Nat.add_1_r in IH. exact IH.
Qed.
Lemma set_out_eq x : set_out x = (OUT, snd x).
Proof. destruct x as [[] l]; reflexivity. Qed.
Lemma sv_of_ok l : l <> [] \/ dbg = false -> exists s, sv_of l = Ok s /\ sv_size s = length l /\ sv_sites s = map (fun x => (OUT, snd x)) l /\ Forall2 is_id (sv_sites s) (sv_ids s).
Proof.
  intros H. unfold SiteVecModel.sv_of. replace (assert_ dbg (0 <? length l)) with (Ok tt). 2:{ destruct H as [H| ->]; [destruct l; [destruct H; auto|]; destruct dbg; reflexivity|reflexivity]. }
  cbn [bind]. pose proof (outs_ok l []) as O. cbn [length app map] in O. rewrite O. cbn [bind]. destruct (gen_ids_ok (map set_out l)) as (ids & I1 & I2). rewrite map_length in I1. rewrite I1. cbn [bind].
  eexists. split; [reflexivity|]. cbn. split; auto. split; auto. apply map_ext. apply set_out_eq.
Qed.
Lemma sv_uniform_ok N x : sv_uniform N x = sv_of (repeat x N).
Proof.
  unfold SiteVecModel.sv_uniform, SiteVecModel.sv_of. rewrite repeat_length. destruct (assert_ dbg (0 <? N)); cbn [bind]; auto. pose proof (outs_ok (repeat x N) []) as O. cbn [length app map] in O. rewrite repeat_length in O. rewrite O. cbn [bind].
  replace (map set_out (repeat x N)) with (repeat (set_out x) N); auto. induction N as [|N IH]; cbn; auto. rewrite IH; auto.
  clear - N. pose proof (outs_ok (repeat x N) []) as O. cbn [length app map] in O. rewrite repeat_length in O. exact O.
Qed.
Lemma sct_eqb_ok a : forall b, sct_eqb Q qeqb a b = true <-> a = b.
Proof.
  induction a as [|[p m] a IH]; intros [|[q n] b]; cbn; split; intros H; auto; try discriminate.
  - apply andb_prop in H. destruct H as [H H3]. apply andb_prop in H. destruct H as [H1 H2]. apply eqb_ok in H1. apply Nat.eqb_eq in H2. apply IH in H3. subst. auto.
  - injection H as -> -> ->. rewrite (proj2 (eqb_ok q q) eq_refl), Nat.eqb_refl. cbn. apply IH. auto.
Qed.
Lemma sites_eqb_ok a : forall b, sites_eqb Q qeqb a b = true <-> a = b.
Proof.
  induction a as [|[d s] a IH]; intros [|[e t] b]; cbn; split; intros H; auto; try discriminate.
  - apply andb_prop in H. destruct H as [H H3]. apply andb_prop in H. destruct H as [H1 H2]. cbn in *. apply sct_eqb_ok in H2. apply IH in H3. subst. destruct d, e; try discriminate; auto.
  - injection H as -> -> ->. unfold index_eqb. cbn. rewrite (proj2 (sct_eqb_ok t t) eq_refl), (proj2 (IH b) eq_refl). destruct e; auto.
Qed.
Lemma sv_eqb_ok l1 l2 s1 s2 : sv_of l1 = Ok s1 -> sv_of l2 = Ok s2 -> (sv_eqb Q A qeqb s1 s2 = true <-> map snd l1 = map snd l2) /\ (sv_eqb Q A qeqb s1 s2 = true -> s1 = s2).
Proof.
  intros H1 H2.
  assert (ND : forall l s, sv_of l = Ok s -> l <> [] \/ dbg = false) by (intros [|y l] s H; [|left; discriminate]; unfold SiteVecModel.sv_of in H; destruct dbg; [discriminate|auto]).
  destruct (sv_of_ok l1 (ND _ _ H1)) as (t1 & A1 & A2 & A3 & _). destruct (sv_of_ok l2 (ND _ _ H2)) as (t2 & B1 & B2 & B3 & _). rewrite H1 in A1. rewrite H2 in B1. injection A1 as <-. injection B1 as <-.
  assert (E1 : sv_eqb Q A qeqb s1 s2 = true <-> map snd l1 = map snd l2).
  { unfold sv_eqb. rewrite sites_eqb_ok, A3, B3. split; intros H.
    - apply (f_equal (map snd)) in H. rewrite !map_map in H. exact H.
    - rewrite <- (map_map snd (fun z => (OUT, z)) l1), <- (map_map snd (fun z => (OUT, z)) l2), H. auto. }
  split; auto. intros H. apply E1 in H.
  assert (L : length l1 = length l2) by (apply (f_equal (@length _)) in H; rewrite !map_length in H; auto).
  assert (M : map set_out l1 = map set_out l2).
  { assert (O : forall l, map set_out l = map (fun z => (OUT, z)) (map snd l)) by (induction l as [|y l IH]; cbn [map]; auto; rewrite IH, set_out_eq; auto). rewrite !O, H. auto. }
  revert H1 H2. unfold SiteVecModel.sv_of. pose proof (outs_ok l1 []) as O1. pose proof (outs_ok l2 []) as O2. cbn [length app map] in O1, O2. rewrite O1, O2, M, L. intros H1 H2. rewrite H1 in H2. injection H2 as ->. auto.
Qed.
Lemma sv_direction (l l' : list index) : map snd l = map snd l' -> sv_of l = sv_of l'.
Proof.
  intros H. assert (L : @length index l = @length index l') by (apply (f_equal (@length _)) in H; rewrite !map_length in H; auto).
  assert (O : forall l, map set_out l = map (fun z => (OUT, z)) (map snd l)) by (induction l0 as [|y l0 IH]; cbn [map]; auto; rewrite IH, set_out_eq; auto).
  unfold SiteVecModel.sv_of. pose proof (outs_ok l []) as O1. pose proof (outs_ok l' []) as O2. cbn [length app map] in O1, O2. rewrite O1, O2, !O, H. rewrite L. reflexivity.
Qed.
Lemma F2_nth {X Y} (P : X -> Y -> Prop) a b : Forall2 P a b -> forall k x, nth_error a k = Some x -> exists y, nth_error b k = Some y /\ P x y.
Proof. induction 1 as [|x y a b H F IH]; intros [|k] z HK; try discriminate; cbn in *; [injection HK as <-; eauto|apply IH; auto]. Qed.
Lemma sv_sites_spec (l : list index) : l <> [] -> exists s, sv_of l = Ok s /\ sv_size s = length l /\ length (sv_ids s) = length l /\
  forall k x, nth_error l k = Some x -> nth_error (sv_sites s) k = Some (OUT, snd x) /\ exists t, nth_error (sv_ids s) k = Some t /\
    t_legs t = ((IN, snd x), (OUT, snd x)) /\ (0 < idim x -> t_div t = Some qz) /\ forall i j, i < idim x -> j < idim x -> t_el t i j = if i =? j then a1 else a0.
Proof.
  intros H. destruct (sv_of_ok l (or_introl H)) as (s & A1 & A2 & A3 & A4). exists s. split; auto. split; auto. split.
  - clear - A3 A4. apply (f_equal (@length _)) in A3. rewrite map_length in A3. etransitivity; [|exact A3]. symmetry. clear A3. induction A4; cbn; auto.
  - intros k x HK. assert (HN : nth_error (sv_sites s) k = Some (OUT, snd x)) by (rewrite A3; apply (map_nth_error (fun y : index => (OUT, snd y)) k l HK)). split; auto.
    destruct (F2_nth _ _ _ A4 k _ HN) as (t & T1 & T2 & T3 & T4). exists t. split; auto.
Qed.
End Sites.
