(** Proofs about Ops.v *)
From Coq Require Import List Arith Lia Bool ZArith Ring.
From Verif Require Import Base Disk MpoGen MpoSpec MpoTen MpoTenSpec MpoTopSpec MpoRunSpec FermionSpec FermionFacts Ops OpsSpec MpoPropFacts.
Import ListNotations.
Local Open Scope nat_scope.

Section Facts.
Variables (R : Type) (r0 r1 : R) (radd rmul rsub : R -> R -> R) (ropp : R -> R).
Variable Rth : ring_theory r0 r1 radd rmul rsub ropp (@eq R).
Add Ring Rr : Rth.
Variables (reqb : R -> R -> bool) (isneg small : R -> bool).
Hypothesis reqb_spec : forall x y, reqb x y = true <-> x = y.
Hypothesis small_opp : forall x, small (ropp x) = small x.
Hypothesis one_zero : r1 <> r0.
Variable half : R.
Hypothesis half_spec : radd half half = r1.
Notation lop := (lop R). Notation elem := (elem r0). Notation ten := (ten R r0). Notation lookup := (lookup R r0).
Notation div_of := (div_of R r0 reqb).

Lemma nth_map_seq {A} (f : nat -> A) (x : A) d a : nth a (map f (seq 0 d)) x = if a <? d then f a else x.
Proof.
  destruct (Nat.ltb_spec a d) as [H|H].
  - rewrite (nth_indep _ x (f 0)) by (rewrite map_length, seq_length; lia). rewrite map_nth, seq_nth by lia. auto.
  - apply nth_overflow. rewrite map_length, seq_length. lia.
Qed.
Lemma elem_ten d t a b : elem (ten d t) a b = if (a <? d) && (b <? d) then lookup t a b else r0.
Proof.
  unfold MpoSpec.elem, Ops.ten. cbn [lo_dat]. rewrite nth_map_seq. destruct (a <? d); cbn [andb].
  - apply nth_map_seq.
  - destruct b; auto.
Qed.
Lemma ten_square d t : square R (fun _ => d) (ten d t).
Proof. unfold square, Ops.ten. cbn [lo_dat lo_ix]. rewrite map_length, seq_length. split; auto. apply Forall_forall. intros r Hr. apply in_map_iff in Hr. destruct Hr as (a & <- & _). rewrite map_length, seq_length. auto. Qed.
Lemma rq_refl x : reqb x x = true.
Proof. apply reqb_spec. auto. Qed.
Lemma rq_false x : x <> r0 -> reqb x r0 = false.
Proof. intros H. destruct (reqb x r0) eqn:E; auto. apply reqb_spec in E. congruence. Qed.
Lemma opp_zero x : ropp x = r0 -> x = r0.
Proof. intros H. transitivity (ropp (ropp x)); [ring|]. rewrite H. ring. Qed.
Lemma rq_opp x : reqb (ropp x) r0 = reqb x r0.
Proof.
  destruct (reqb x r0) eqn:E.
  - apply reqb_spec in E. rewrite E. apply reqb_spec. ring.
  - apply rq_false. intros H. apply opp_zero in H. apply reqb_spec in H. congruence.
Qed.
Lemma rq_one : reqb r1 r0 = false.
Proof. apply rq_false; auto. Qed.
Lemma rq_m1 : reqb (ropp r1) r0 = false.
Proof. rewrite rq_opp. apply rq_one. Qed.
Lemma rq_half : reqb half r0 = false.
Proof. apply rq_false. intros H. apply one_zero. rewrite <- half_spec, H. ring. Qed.
Lemma rq_mhalf : reqb (ropp half) r0 = false.
Proof. rewrite rq_opp. apply rq_half. Qed.
Lemma dv_row_neg ch a : forall r b, dv_row R r0 reqb ch a (map ropp r) b = dv_row R r0 reqb ch a r b.
Proof. induction r as [|x r IH]; intros b; cbn; auto. rewrite rq_opp, IH. auto. Qed.
Lemma div_neg ch o : div_of ch (lop_neg R ropp o) = div_of ch o.
Proof. unfold Ops.div_of, lop_neg. cbn [lo_dat]. generalize 0. induction (lo_dat o) as [|r d IH]; intros a; cbn; auto. rewrite dv_row_neg, IH. auto. Qed.

(** ** Two-site terms *)
Section Terms.
Variables (N d : nat) (charge : nat -> Z * Z) (idop : lop).
Notation sites := (repeat 0 N). Notation idops := (repeat idop N).
Notation pd := (fun _ : nat => d).
Definition blk (ix a b : nat) (q : Z * Z) : Prop := q = zsub2 (charge b) (charge a).
Notation dv := (div_of charge).
Notation id_on := (id_on R idops).
Definition q00 : Z * Z := (0, 0)%Z.
Definition strop (o1 : lop) (i1 : nat) (o2 : lop) (i2 : nat) (f : lop) (k : nat) : lop :=
  if k =? i1 then o1 else if k =? i2 then o2 else if (i1 <? k) && (k <? i2) then f else id_on k.
Definition pairop (o1 : lop) (i1 : nat) (o2 : lop) (i2 : nat) (k : nat) : lop := if k =? i1 then o1 else if k =? i2 then o2 else id_on k.
Lemma fits_ok o i : lo_ix o = 0 -> i < N -> fits R sites o i.
Proof. intros H1 H2. unfold fits. rewrite H1. rewrite (nth_error_nth' _ 0) by (rewrite repeat_length; auto). rewrite nth_repeat. auto. Qed.
Lemma id_on_ok i : i < N -> id_on i = idop.
Proof. intros H. unfold MpoRunSpec.id_on. rewrite (nth_indep _ _ idop) by (rewrite repeat_length; auto). apply nth_repeat. Qed.
Ltac ebs := repeat match goal with |- context [?a =? ?b] => destruct (Nat.eqb_spec a b); try lia | |- context [?a <? ?b] => destruct (Nat.ltb_spec a b); try lia end; cbn [andb]; auto.
Lemma strop_means o1 i1 o2 i2 f : lo_ix o1 = 0 -> lo_ix o2 = 0 -> lo_ix f = 0 -> i1 < i2 -> i2 < N ->
  means_strings R sites idops [o1; o2] [i1; i2] [f] (strop o1 i1 o2 i2 f).
Proof.
  intros H1 H2 H3 HI HN. unfold means_strings, strop. cbn [length nth Nat.sub]. split; [lia|]. split; [auto|]. split; [auto|]. split; [|split; [|split; [|split; [|split]]]].
  - intros k p a Hp Ha. destruct k as [|[|k]]; cbn in Hp, Ha.
    + injection Hp as <-. injection Ha as <-. split; [apply fits_ok; auto; lia|ebs].
    + injection Hp as <-. injection Ha as <-. split; [apply fits_ok; auto; lia|ebs].
    + destruct k; discriminate.
  - intros k a b Ha Hb. destruct k as [|[|k]]; cbn in Ha, Hb; [congruence|discriminate|destruct k; discriminate].
  - intros k a b g i Ha Hb Hg Hi. destruct k as [|k]; cbn in Ha, Hb, Hg; [|destruct k; discriminate]. injection Ha as <-. injection Hb as <-. injection Hg as <-. split; [apply fits_ok; auto; lia|ebs].
  - intros i Hi. ebs.
  - intros _ i Hi. ebs.
  - intros g Hg. discriminate.
Qed.
Lemma pairop_means o1 i1 o2 i2 : lo_ix o1 = 0 -> lo_ix o2 = 0 -> i1 < i2 -> i2 < N -> means_term R sites idops [o1; o2] [i1; i2] (pairop o1 i1 o2 i2).
Proof.
  intros H1 H2 HI HN. unfold means_term, pairop. split; [discriminate|]. split; [auto|]. split; [repeat constructor; cbn; lia|]. split.
  - intros k o i Ho Hi. destruct k as [|[|k]]; cbn in Ho, Hi.
    + injection Ho as <-. injection Hi as <-. split; [apply fits_ok; auto; lia|ebs].
    + injection Ho as <-. injection Hi as <-. split; [apply fits_ok; auto; lia|ebs].
    + destruct k; discriminate.
  - intros i Hi. cbn in Hi. ebs; subst; tauto.
Qed.
Lemma div_fold (w : nat -> Z * Z) i1 i2 a : (forall k, k < N -> k <> i1 -> k <> i2 -> w k = q00) -> w i1 = a -> w i2 = zsub2 q00 a -> i1 <> i2 -> forall n b q, b + n <= N ->
  fold_left (fun q i => zsub2 q (w i)) (seq b n) q =
  zsub2 (zsub2 q (if (b <=? i1) && (i1 <? b + n) then a else q00)) (if (b <=? i2) && (i2 <? b + n) then zsub2 q00 a else q00).
Proof.
  intros H0 H1 H2 HN. induction n as [|n IH]; intros b q Hb.
  - cbn [seq fold_left]. replace ((b <=? i1) && (i1 <? b + 0)) with false by (symmetry; apply andb_false_iff; destruct (Nat.leb_spec b i1); auto; right; apply Nat.ltb_ge; lia).
    replace ((b <=? i2) && (i2 <? b + 0)) with false by (symmetry; apply andb_false_iff; destruct (Nat.leb_spec b i2); auto; right; apply Nat.ltb_ge; lia). unfold zsub2, q00. destruct q. cbn. f_equal; lia.
  - cbn [seq fold_left]. rewrite IH by lia. replace (S b + n) with (b + S n) by lia.
    destruct (Nat.eq_dec b i1) as [E1|E1]; [|destruct (Nat.eq_dec b i2) as [E2|E2]].
    + subst i1. rewrite H1. destruct (Nat.leb_spec (S b) b), (Nat.leb_spec b b), (Nat.leb_spec (S b) i2), (Nat.leb_spec b i2), (Nat.ltb_spec b (b + S n)), (Nat.ltb_spec i2 (b + S n)); try lia; cbn [andb]; unfold zsub2, q00; destruct q, a; cbn; f_equal; lia.
    + subst i2. rewrite H2. destruct (Nat.leb_spec (S b) b), (Nat.leb_spec b b), (Nat.leb_spec (S b) i1), (Nat.leb_spec b i1), (Nat.ltb_spec b (b + S n)), (Nat.ltb_spec i1 (b + S n)); try lia; cbn [andb]; unfold zsub2, q00; destruct q, a; cbn; f_equal; lia.
    + rewrite H0 by (auto; lia). destruct (Nat.leb_spec (S b) i1), (Nat.leb_spec b i1), (Nat.leb_spec (S b) i2), (Nat.leb_spec b i2); try lia; unfold zsub2, q00; destruct q, a; cbn; destruct (i1 <? b + S n), (i2 <? b + S n); cbn; f_equal; lia.
Qed.
Definition good_op (o : lop) : Prop := lo_ix o = 0 /\ square R pd o /\ block_op R r0 (Z * Z) dv blk o.
Definition good_pair (o1 o2 : lop) : Prop := good_op o1 /\ good_op o2 /\ dv o2 = zsub2 q00 (dv o1).
Hypothesis id_good : good_op idop.
Hypothesis id_div : dv idop = q00.
Lemma physical_two (op : nat -> lop) i1 i2 : i1 < i2 -> i2 < N -> good_pair (op i1) (op i2) -> (forall k, k < N -> k <> i1 -> k <> i2 -> good_op (op k) /\ dv (op k) = q00) ->
  physical R r0 sites pd (Z * Z) q00 zsub2 dv blk op.
Proof.
  intros HI HN (G1 & G2 & G3) HO. split.
  - rewrite repeat_length. intros i Hi. destruct (Nat.eq_dec i i1) as [->|N1]; [destruct G1 as (_ & ? & ?); auto|]. destruct (Nat.eq_dec i i2) as [->|N2]; [destruct G2 as (_ & ? & ?); auto|].
    destruct (HO i Hi N1 N2) as [(_ & ? & ?) _]. auto.
  - rewrite repeat_length. rewrite (div_fold (fun i => dv (op i)) i1 i2 (dv (op i1))); auto; [|intros; apply HO; auto|lia].
    replace ((0 <=? i1) && (i1 <? 0 + N)) with true by (symmetry; apply andb_true_iff; split; [apply Nat.leb_le|apply Nat.ltb_lt]; lia).
    replace ((0 <=? i2) && (i2 <? 0 + N)) with true by (symmetry; apply andb_true_iff; split; [apply Nat.leb_le|apply Nat.ltb_lt]; lia).
    unfold zsub2, q00. destruct (dv (op i1)). cbn. f_equal; lia.
Qed.
Lemma strop_physical o1 i1 o2 i2 f : i1 < i2 -> i2 < N -> good_pair o1 o2 -> good_op f -> dv f = q00 -> physical R r0 sites pd (Z * Z) q00 zsub2 dv blk (strop o1 i1 o2 i2 f).
Proof.
  intros HI HN GP GF DF. apply (physical_two _ i1 i2); auto.
  - unfold strop. rewrite Nat.eqb_refl. destruct (Nat.eqb_spec i2 i1); [lia|]. rewrite Nat.eqb_refl. auto.
  - intros k Hk H1 H2. unfold strop. destruct (Nat.eqb_spec k i1); [lia|]. destruct (Nat.eqb_spec k i2); [lia|]. destruct ((i1 <? k) && (k <? i2)); auto. rewrite id_on_ok by auto. auto.
Qed.
Lemma pairop_physical o1 i1 o2 i2 : i1 < i2 -> i2 < N -> good_pair o1 o2 -> physical R r0 sites pd (Z * Z) q00 zsub2 dv blk (pairop o1 i1 o2 i2).
Proof.
  intros HI HN GP. apply (physical_two _ i1 i2); auto.
  - unfold pairop. rewrite Nat.eqb_refl. destruct (Nat.eqb_spec i2 i1); [lia|]. rewrite Nat.eqb_refl. auto.
  - intros k Hk H1 H2. unfold pairop. destruct (Nat.eqb_spec k i1); [lia|]. destruct (Nat.eqb_spec k i2); [lia|]. rewrite id_on_ok by auto. auto.
Qed.
Notation legal := (legal R r0 reqb small sites idops pd (Z * Z) q00 zsub2 dv blk).
Notation total := (total R r0 r1 rmul reqb small sites radd).
Lemma total_app : forall a oa b ob s s', length a = length oa -> total (a ++ b) (oa ++ ob) s s' = radd (total a oa s s') (total b ob s s').
Proof. induction a as [|x a IH]; intros [|y oa] b ob s s' H; try discriminate; cbn [app MpoRunSpec.total]; [ring|]. rewrite IH by (cbn in H; lia). ring. Qed.
Lemma legal_app a oa b ob : legal a oa -> legal b ob -> legal (a ++ b) (oa ++ ob).
Proof. unfold MpoRunSpec.legal. apply Forall2_app. Qed.
Lemma id_lists : good_ids R pd (Z * Z) zsub2 dv sites idops.
Proof. unfold good_ids. destruct id_good as (H1 & H2 & _). clear - H1 H2 id_div. induction N as [|n IH]; cbn; constructor; auto. split; auto. split; auto. intros q. rewrite id_div. unfold zsub2, q00. destruct q. cbn. f_equal; lia. Qed.
Lemma id_blocks : Forall (block_op R r0 (Z * Z) dv blk) idops.
Proof. apply Forall_forall. intros o Ho. apply repeat_spec in Ho. subst. apply id_good. Qed.
(** matrix elements of the terms *)
Lemma pair_total c o1 i1 o2 i2 s s' : i1 < i2 -> i2 < N -> (forall k, k < N -> elem idop (s k) (s' k) = if s k =? s' k then r1 else r0) ->
  prod_elem R r0 r1 rmul sites c (pairop o1 i1 o2 i2) s s' = rmul c (pair_elem R r0 rmul N s s' o1 o2 i1 i2).
Proof.
  intros HI HN HE. unfold prod_elem, pair_elem. f_equal. rewrite repeat_length.
  rewrite (string_prod R r0 r1 radd rmul rsub ropp Rth N i1 i2 s s' _ (fun _ => false)); auto.
  - unfold pairop. rewrite Nat.eqb_refl. destruct (Nat.eqb_spec i2 i1); [lia|]. rewrite Nat.eqb_refl. destruct (forallb _ _); auto.
    replace (mid N i1 i2 (fun _ => false)) with false; [cbn; ring|]. symmetry. unfold mid. transitivity (xorl N 0 (fun _ => false)); [|apply xorl_false]. apply xorl_ext. intros. apply andb_false_r.
  - intros k Hk H1 H2. unfold pairop. destruct (Nat.eqb_spec k i1); [lia|]. destruct (Nat.eqb_spec k i2); [lia|]. rewrite id_on_ok by auto. cbn beta. rewrite ?andb_false_r. apply HE. auto.
Qed.
Lemma string_total c o1 i1 o2 i2 f (p : nat -> bool) s s' : i1 < i2 -> i2 < N -> (forall k, k < N -> elem idop (s k) (s' k) = if s k =? s' k then r1 else r0) ->
  (forall k, k < N -> elem f (s k) (s' k) = if s k =? s' k then sgn R r1 ropp (p (s k)) else r0) ->
  prod_elem R r0 r1 rmul sites c (strop o1 i1 o2 i2 f) s s' =
  rmul c (if all_but N i1 i2 s s' then rmul (rmul (elem o1 (s i1) (s' i1)) (elem o2 (s i2) (s' i2))) (sgn R r1 ropp (mid N i1 i2 (fun k => p (s k)))) else r0).
Proof.
  intros HI HN HE HF. unfold prod_elem. f_equal. rewrite repeat_length.
  rewrite (string_prod R r0 r1 radd rmul rsub ropp Rth N i1 i2 s s' _ (fun k => p (s k))); auto.
  - unfold strop. rewrite Nat.eqb_refl. destruct (Nat.eqb_spec i2 i1); [lia|]. rewrite Nat.eqb_refl. unfold all_but. auto.
  - intros k Hk H1 H2. unfold strop. destruct (Nat.eqb_spec k i1); [lia|]. destruct (Nat.eqb_spec k i2); [lia|]. destruct ((i1 <? k) && (k <? i2)) eqn:E.
    + cbn [andb]. apply HF; auto.
    + cbn [andb]. rewrite id_on_ok by auto. apply HE. auto.
Qed.
End Terms.

(** ** From terms to the MPO *)
Section Run.
Variables (N d : nat) (charge : nat -> Z * Z) (idop : lop).
Notation sites := (repeat 0 N). Notation idops := (repeat idop N).
Hypothesis id_good : good_op d charge idop.
Hypothesis id_div : div_of charge idop = q00.
Notation run dbg calls := (run R r0 r1 ropp reqb isneg small dbg sites idops calls).
Notation Gen dbg compress g := (gen_mpo R r0 radd rmul (Z * Z) zsub2 (fun a b => (fst a =? fst b)%Z && (snd a =? snd b)%Z) (div_of charge) dbg compress q00 g).
Notation amp ts s s' := (mpo_amp R r0 r1 radd rmul reqb (Z * Z) ts s s').
Notation legal := (legal R r0 reqb small sites idops (fun _ => d) (Z * Z) q00 zsub2 (div_of charge) (blk charge)).
Notation total := (total R r0 r1 rmul reqb small sites radd).
Lemma zz_eqb a b : (fst a =? fst b)%Z && (snd a =? snd b)%Z = true <-> a = b :> Z * Z.
Proof. destruct a, b. cbn. rewrite andb_true_iff, !Z.eqb_eq. split; [intros []; congruence|intros H; injection H; auto]. Qed.
Lemma zz_self a : zsub2 a a = q00.
Proof. unfold zsub2, q00. destruct a. cbn. f_equal; lia. Qed.
Lemma zz_cancel a b c : zsub2 a c = zsub2 b c -> a = b.
Proof. unfold zsub2. destruct a, b, c. cbn. intros H. injection H. intros. f_equal; lia. Qed.
(** calls that are no one-site terms and have no tail string *)
Lemma mpo_of_calls calls ops : legal calls ops -> existsb (acounted R r0 reqb small) calls = true ->
  Forall (fun a => one_site R a = None /\ tail_neg R r0 reqb isneg a = false) calls ->
  forall dbg, exists g, run dbg calls = Ok g /\ forall dbg' compress, exists ts, Gen dbg' compress g = Ok ts /\ forall s s', amp ts s s' = total calls ops s s'.
Proof.
  intros HL HC HA dbg.
  assert (HT : no_twice R r0 ropp reqb isneg (filter (acounted R r0 reqb small) calls)).
  { intros j j' a a' o o' i _ Ha Ha' Ho. apply nth_error_In in Ha. apply filter_In in Ha. destruct Ha as [Ha _]. rewrite Forall_forall in HA. destruct (HA a Ha). congruence. }
  assert (HN : Forall (fun a => tail_neg R r0 reqb isneg a = false) (filter (acounted R r0 reqb small) calls)).
  { apply Forall_forall. intros a Ha. apply filter_In in Ha. rewrite Forall_forall in HA. apply HA. tauto. }
  assert (IL := id_lists N d charge idop id_good id_div). assert (IB := id_blocks N d charge idop id_good).
  destruct (C01_lemma R r0 r1 radd rmul rsub ropp Rth reqb isneg small reqb_spec (Z * Z) q00 zsub2 _ (div_of charge) zz_eqb zz_self zz_cancel (div_neg charge) (fun _ => d) (blk charge) sites idops IL IB calls ops HL HC HT HN dbg) as (g & A & B).
  destruct (C02_lemma R r0 r1 radd rmul rsub ropp Rth reqb isneg small reqb_spec (Z * Z) q00 zsub2 _ (div_of charge) zz_eqb zz_self zz_cancel (div_neg charge) (fun _ => d) (blk charge) sites idops IL IB calls ops HL HC dbg) as (g' & A' & B').
  assert (g' = g) by congruence. subst g'. exists g. split; auto. intros dbg' [].
  - destruct (B' dbg' dbg') as (ts & ts0 & C1 & C2 & C3). destruct (B dbg') as (ts1 & D1 & D2). exists ts. split; auto. intros s s'. rewrite C3. replace ts0 with ts1 by congruence. auto.
  - apply B.
Qed.
End Run.
End Facts.
