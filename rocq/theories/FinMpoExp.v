(** Proofs: bookkeeping of the center, files, and the Taylor series *)
From Coq Require Import List Arith Lia Bool ZArith Ring Factorial.
From Verif Require Import Base FiniteMps FmpsSpec EffHam EffHamSpec FinMpo FinMpoSpec FinMpoFacts.
Import ListNotations.

Section Facts.
Variables (R : Type) (r0 r1 : R) (radd rmul rsub : R -> R -> R) (ropp : R -> R).
Variable Rth : ring_theory r0 r1 radd rmul rsub ropp (@eq R).
Add Ring Rfx : Rth.
Infix "+r" := radd (at level 50, left associativity).
Infix "*r" := rmul (at level 40, left associativity).
Notation sumn := (sumn R r0 radd). Notation lsum := (lsum R r0 radd). Notation ten4 := (ten4 R). Notation fmpo := (fmpo R).
Notation o4_mat := (o4_mat R r0 r1 radd rmul). Notation elem := (elem R r0 r1 radd rmul).
Notation holds4 := (holds4 R). Notation oper_on := (oper_on R).
Notation o_mul := (o_mul R r0 radd rmul). Notation o_pow := (o_pow R r0 r1 radd rmul). Notation o_id := (o_id R r0 r1). Notation o_trace := (o_trace R r0 radd).
Notation rpow := (rpow R r1 rmul). Notation rnat := (rnat R r0 r1 radd).
Notation tscale := (tscale R rmul).
Variables (norm : ten4 -> R) (inv : R -> R).

(** ** Center *)
Definition where_ (st : fmpo) : nat := if negb (mcenter st =? -1)%Z then Z.to_nat (mcenter st) else 0.
Definition good_center (st : fmpo) (n : nat) : Prop := mcenter st = (-1)%Z \/ (0 <= mcenter st < Z.of_nat n)%Z.
Lemma where_lt st n : good_center st n -> 1 <= n -> where_ st < n.
Proof. intros [E|E] H; unfold where_; [rewrite E; cbn; lia|]. destruct (Z.eqb_spec (mcenter st) (-1)); cbn; lia. Qed.
Lemma scale_form s st A : holds4 st A -> good_center st (length A) -> 1 <= length A ->
  exists t, nth_error A (where_ st) = Some t /\ mpo_scale R rmul s st = Ok (mkFmpo (map Some (upd A (where_ st) (tscale s t))) (upd (mtypes st) (where_ st) NONE) (mcenter st)).
Proof.
  intros [HT HY] HG HN. assert (HW := where_lt _ _ HG HN). destruct (nth_error A (where_ st)) as [t|] eqn:E; [|apply nth_error_None in E; lia]. exists t. split; auto.
  unfold mpo_scale. replace (mcenter st <? -1)%Z with false by (symmetry; apply Z.ltb_ge; destruct HG; lia). fold (where_ st). unfold mtouch. rewrite vset_ok by lia. cbn [bind].
  rewrite (vget_nth (mtens st) (where_ st) (Some t)) by (rewrite HT, nth_error_map, E; auto). cbn [bind]. unfold mderef. cbn [mtens]. rewrite (vget_nth (mtens st) (where_ st) (Some t)) by (rewrite HT, nth_error_map, E; auto). cbn [bind].
  unfold mput. cbn [mtens mtypes mcenter]. rewrite vset_ok by (rewrite HT, map_length; auto). cbn [bind mtens mtypes]. f_equal. f_equal; [rewrite map_upd, HT; auto|]. destruct (Z.eqb_spec (mcenter st) (-1)); cbn; auto.
Qed.
Lemma normalize_form st A : holds4 st A -> good_center st (length A) -> 1 <= length A ->
  exists t, nth_error A (where_ st) = Some t /\ mpo_normalize R rmul norm inv st = Ok (norm t, mkFmpo (map Some (upd A (where_ st) (tscale (inv (norm t)) t))) (upd (mtypes st) (where_ st) NONE) (mcenter st)).
Proof.
  intros [HT HY] HG HN. assert (HW := where_lt _ _ HG HN). destruct (nth_error A (where_ st)) as [t|] eqn:E; [|apply nth_error_None in E; lia]. exists t. split; auto.
  unfold mpo_normalize. replace (mcenter st <? -1)%Z with false by (symmetry; apply Z.ltb_ge; destruct HG; lia). fold (where_ st). unfold mtouch. rewrite vset_ok by lia. cbn [bind].
  rewrite (vget_nth (mtens st) (where_ st) (Some t)) by (rewrite HT, nth_error_map, E; auto). cbn [bind]. unfold mderef. cbn [mtens]. rewrite (vget_nth (mtens st) (where_ st) (Some t)) by (rewrite HT, nth_error_map, E; auto). cbn [bind].
  unfold mput. cbn [mtens mtypes mcenter]. rewrite vset_ok by (rewrite HT, map_length; auto). cbn [bind mtens mtypes]. f_equal. f_equal. f_equal; [rewrite map_upd, HT; auto|]. destruct (Z.eqb_spec (mcenter st) (-1)); cbn; auto.
Qed.
Lemma flags_keep n (ty : list cano) k : flags_at n k ty -> k < n -> upd ty k NONE = ty.
Proof. intros [L H] HK. apply upd_same. rewrite H by auto. rewrite Nat.ltb_irrefl, Nat.eqb_refl. auto. Qed.
(** dumping *)
Lemma dump_form st A d : holds4 st A -> exists d', mpo_dump R st d = Ok d' /\ cfile d' = Some (mcenter st) /\ forall i, mfile d' i = match nth_error A i with Some t => Some t | None => match d with Some d => mfile d i | None => None end end.
Proof.
  intros [HT HY]. unfold mpo_dump. set (f0 := mfile (match d with Some d => d | None => mkMdir (fun _ => None) None end)).
  destruct (for_loop_inv (nat -> option ten4) (fun k f => forall i, f i = if i <? k then nth_error A i else f0 i) (fun i f => let! t := mderef R st i in Ok (fun j => if j =? i then Some t else f j)) (length A) 0 f0) as (f & F1 & F2).
  - auto.
  - intros i f [_ Hi] HF. destruct (nth_error A i) as [t|] eqn:E; [|apply nth_error_None in E; cbn in *; lia]. rewrite (mderef_at R A st i t) by auto. cbn [bind]. eexists. split; [reflexivity|]. intros j. cbv beta. destruct (Nat.eqb_spec j i) as [->|NE].
    + destruct (Nat.ltb_spec i (S i)); [auto|lia].
    + rewrite HF. destruct (Nat.ltb_spec j i), (Nat.ltb_spec j (S i)); auto; lia.
  - replace (length (mtens st)) with (length A) by (rewrite HT, map_length; auto). rewrite F1. cbn [bind]. eexists. split; [reflexivity|]. split; auto. intros i. cbn [mfile]. rewrite F2. cbn [Nat.add].
    destruct (Nat.ltb_spec i (length A)) as [H|H]; [destruct (nth_error A i) eqn:E; auto; apply nth_error_None in E; lia|]. rewrite (proj2 (nth_error_None A i) H). unfold f0. destruct d; auto.
Qed.
Lemma set_center_form st c n : mcenter st = Z.of_nat c -> c < n -> length (mtens st) = n -> length (mtypes st) = n ->
  exists ty, set_center R st = Ok (mkFmpo (mtens st) ty (mcenter st)) /\ flags_at n c ty.
Proof.
  intros HC HLt HT HY. unfold set_center. rewrite HC. destruct (Z.eqb_spec (Z.of_nat c) (-1)); [lia|]. destruct (Z.ltb_spec (Z.of_nat c) 0); [lia|]. rewrite Nat2Z.id.
  destruct (for_loop_inv (list cano) (fun i ty => length ty = n /\ forall j, j < i -> nth_error ty j = Some LEFT) (fun i ty => vset ty i LEFT) c 0 (mtypes st)) as (ty1 & E1 & L1 & F1).
  - split; auto. intros; lia.
  - intros i ty [_ Hi] [L F]. rewrite vset_ok by lia. eexists. split; [reflexivity|]. rewrite upd_length. split; auto. intros j Hj. destruct (Nat.eq_dec j i) as [->|NE]; [apply nth_error_upd_same; lia|]. rewrite nth_error_upd_other by auto. apply F. lia.
  - rewrite E1. cbn [bind]. rewrite vset_ok by lia. cbn [bind]. cbn [Nat.add] in F1.
    destruct (for_loop_inv (list cano) (fun i ty => length ty = n /\ forall j, j < i -> nth_error ty j = Some (if j <? c then LEFT else if j =? c then NONE else RIGHT)) (fun i ty => vset ty i RIGHT) (length (mtens st) - (c + 1)) (c + 1) (upd ty1 c NONE)) as (ty2 & E2 & L2 & F2).
    + rewrite upd_length. split; auto. intros j Hj. destruct (Nat.eq_dec j c) as [->|NE]; [rewrite nth_error_upd_same by lia; rewrite Nat.ltb_irrefl, Nat.eqb_refl; auto|]. rewrite nth_error_upd_other by auto. rewrite F1 by lia. destruct (Nat.ltb_spec j c); [auto|lia].
    + intros i ty [Hi1 Hi2] [L F]. rewrite vset_ok by lia. eexists. split; [reflexivity|]. rewrite upd_length. split; auto. intros j Hj. destruct (Nat.eq_dec j i) as [->|NE].
      * rewrite nth_error_upd_same by lia. destruct (Nat.ltb_spec i c); [lia|]. destruct (Nat.eqb_spec i c); [lia|auto].
      * rewrite nth_error_upd_other by auto. apply F. lia.
    + rewrite E2. cbn [bind]. exists ty2. split; [auto|]. split; auto. intros i Hi. apply F2. lia.
Qed.
Lemma load_form d A st : (forall i t, nth_error A i = Some t -> mfile d i = Some t) -> length (mtens st) = length A ->
  mpo_load R (Some d) st = let! st' := set_center R (mkFmpo (map Some A) (mtypes st) (match cfile d with Some c => c | None => mcenter st end)) in Ok (true, st').
Proof.
  intros HF HL. unfold mpo_load.
  destruct (for_loop_inv fmpo (fun k s => length (mtens s) = length A /\ mtypes s = mtypes st /\ mcenter s = mcenter st /\ forall j, j < k -> nth_error (mtens s) j = option_map Some (nth_error A j))
    (fun i st => match mfile d i with Some t => mput R i (Some t) st | None => Abort end) (length A) 0 st) as (s & E & L & T & C & F).
  - repeat split; auto. intros; lia.
  - intros i s [_ Hi] (L & T & C & F). cbn [Nat.add] in Hi. destruct (nth_error A i) as [t|] eqn:EA; [|apply nth_error_None in EA; lia]. rewrite (HF i t EA). unfold mput. rewrite vset_ok by lia. cbn [bind]. eexists. split; [reflexivity|].
    cbn [mtens mtypes mcenter]. rewrite upd_length. repeat split; auto. intros j Hj. destruct (Nat.eq_dec j i) as [->|NE]; [rewrite nth_error_upd_same by lia; rewrite EA; auto|]. rewrite nth_error_upd_other by auto. apply F. lia.
  - rewrite HL, E. cbn [bind]. rewrite T, C. replace (mtens s) with (map Some A); auto. apply nth_error_ext. intros j. rewrite nth_error_map. destruct (Nat.lt_ge_cases j (length A)) as [H|H]; [symmetry; apply F; auto|].
    rewrite (proj2 (nth_error_None A j) H), (proj2 (nth_error_None (mtens s) j)); auto. lia.
Qed.

(** ** Taylor series *)
Lemma max_bond_ok st A : holds4 st A -> 1 <= length A -> exists D, max_bond R st = Ok D.
Proof.
  intros [HT HY] HN. unfold max_bond. replace (length (mtens st)) with (length A) by (rewrite HT, map_length; auto). destruct (Nat.eqb_spec (length A) 0); [lia|].
  destruct (for_loop_inv nat (fun _ _ => True) (fun i D => let! t := mderef R st i in Ok (Nat.max D (m3 t))) (length A - 1) 0 1) as (D & E & _); auto.
  - intros i D [_ Hi] _. destruct (nth_error A i) as [t|] eqn:EA; [|apply nth_error_None in EA; cbn in *; lia]. rewrite (mderef_at R A st i t) by auto. cbn [bind]. eexists. split; [reflexivity|auto].
  - exists D. auto.
Qed.
Variable ds : list nat.
Hypothesis two : 2 <= length ds.
Definition same_op (F G : oper R) : Prop := forall c c', In c (configs ds) -> In c' (configs ds) -> F c c' = G c c'.
Lemma cfg_len c : In c (configs ds) -> length c = length ds.
Proof. intros H. apply cfg_in in H. clear two. induction H; cbn; auto. Qed.
Lemma same_trace F G : same_op F G -> o_trace ds F = o_trace ds G.
Proof. intros H. apply l_ext. intros. apply H; auto. Qed.
Lemma same_mul F G F' G' : same_op F F' -> same_op G G' -> same_op (o_mul ds F G) (o_mul ds F' G').
Proof. intros H1 H2 c c' Hc Hc'. apply l_ext. intros k Hk. rewrite H1, H2; auto. Qed.

Variables (truncate : nat -> fmpo -> res fmpo) (vproduct : nat -> fmpo -> fmpo -> res fmpo) (centralize0 : fmpo -> res fmpo).
Variables (stop : R -> R -> bool) (positive : R -> bool) (inv_nat cf : nat -> R).
(** nothing is cut off: what the truncation and the variational product return is the same operator *)
Definition keeps (st st' : fmpo) : Prop := forall A, holds4 st A -> oper_on ds A -> good_center st (length A) -> exists A', holds4 st' A' /\ oper_on ds A' /\ good_center st' (length A') /\ same_op (elem A') (elem A).
Hypothesis trunc_exact : forall D st A, holds4 st A -> oper_on ds A -> good_center st (length A) -> exists st', truncate D st = Ok st' /\ keeps st st'.
Hypothesis vprod_exact : forall n p q A B, holds4 p A -> holds4 q B -> oper_on ds A -> oper_on ds B -> exists st' A', vproduct n p q = Ok st' /\ holds4 st' A' /\ oper_on ds A' /\ good_center st' (length A') /\ same_op (elem A') (o_mul ds (elem A) (elem B)).
Hypothesis cent_exact : forall st A, holds4 st A -> oper_on ds A -> good_center st (length A) -> exists st', centralize0 st = Ok st' /\ keeps st st'.
Hypothesis inv_ok : forall n, 1 <= n -> rnat n *r inv_nat n = r1.
Hypothesis cf_ok : forall n, rnat (fact n) *r cf n = r1.
Lemma rnat_add a b : rnat (a + b) = rnat a +r rnat b.
Proof. induction a; cbn; [ring|]. rewrite IHa. ring. Qed.
Lemma rnat_mul a b : rnat (a * b) = rnat a *r rnat b.
Proof. induction a; cbn [Nat.mul FinMpoSpec.rnat]; [ring|]. rewrite rnat_add, IHa. ring. Qed.
Lemma cf_0 : cf 0 = r1.
Proof. rewrite <- (cf_ok 0). cbn. ring. Qed.
Lemma cf_S n : cf (S n) = inv_nat (S n) *r cf n.
Proof.
  assert (A := cf_ok n). assert (B := cf_ok (S n)). assert (C := inv_ok (S n) ltac:(lia)). change (fact (S n)) with (S n * fact n) in B. rewrite rnat_mul in B. set (a := rnat (S n)) in *. set (b := rnat (fact n)) in *.
  transitivity (cf (S n) *r (a *r inv_nat (S n)) *r (b *r cf n)); [rewrite C, A; ring|]. transitivity ((a *r b *r cf (S n)) *r (inv_nat (S n) *r cf n)); [ring|]. rewrite B. ring.
Qed.
Variables (H : list ten4) (mtau : R).
Hypothesis HH : oper_on ds H.
Notation Hop := (elem H).
Notation exp_term := (exp_term R r0 r1 radd rmul ds cf mtau Hop).
Notation exp_sum := (exp_sum R r0 r1 radd rmul ds cf mtau Hop).
Lemma id_left F : same_op (o_mul ds o_id F) F.
Proof.
  intros c c' Hc Hc'. unfold FinMpoSpec.o_mul, FinMpoSpec.o_id. clear Hc.
  assert (X : forall es g d, In d (configs es) -> lsum (configs es) (fun k => (if list_eq_dec Nat.eq_dec k d then r1 else r0) *r g k) = g d).
  { clear - Rth. induction es as [|e es IH]; intros g d Hd.
    - destruct Hd as [<-|[]]. cbn. ring.
    - apply cfg_in in Hd. inversion Hd as [|s e' d' es' H1 H2]; subst. rewrite (cfg_cons R r0 r1 radd rmul rsub ropp Rth). rewrite (s_one R r0 r1 radd rmul rsub ropp Rth e s); [|auto|].
      + rewrite <- (IH (fun k => g (s :: k)) d') by (apply cfg_in; auto). apply l_ext. intros k _. rewrite (list_dec_cons R r0 r1), Nat.eqb_refl. auto.
      + intros i Hi NE. apply (l_0 R r0 r1 radd rmul rsub ropp Rth). intros k _. rewrite (list_dec_cons R r0 r1). destruct (Nat.eqb_spec i s); [congruence|ring]. }
  apply (X ds (fun k => F c k) c'). auto.
Qed.
Lemma term_0 : same_op (exp_term 0) o_id.
Proof. intros c c' _ _. unfold FinMpoSpec.exp_term. cbn. rewrite cf_0. ring. Qed.
Lemma term_1 : same_op (exp_term 1) (fun c c' => mtau *r Hop c c').
Proof.
  intros c c' Hc Hc'. unfold FinMpoSpec.exp_term. cbn [FinMpoSpec.rpow FinMpoSpec.o_pow]. rewrite id_left by auto. rewrite cf_S, cf_0. assert (E := inv_ok 1 ltac:(lia)). cbn in E.
  transitivity (((r1 +r r0) *r inv_nat 1) *r (mtau *r Hop c c')); [ring|]. rewrite E. ring.
Qed.
Lemma term_S n : same_op (exp_term (S n)) (fun c c' => inv_nat (S n) *r o_mul ds (exp_term n) (fun c c' => mtau *r Hop c c') c c').
Proof.
  intros c c' Hc Hc'. unfold FinMpoSpec.exp_term. cbn [FinMpoSpec.rpow FinMpoSpec.o_pow]. rewrite cf_S. unfold FinMpoSpec.o_mul. rewrite !(l_mull R r0 r1 radd rmul rsub ropp Rth). apply l_ext. intros k _. ring.
Qed.
Lemma sum_S n : same_op (exp_sum (S n)) (fun c c' => exp_sum n c c' +r exp_term n c c').
Proof. intros c c' _ _. reflexivity. Qed.

(** an object that stands for an operator *)
Definition is_op (st : fmpo) (F : oper R) : Prop := exists A, holds4 st A /\ oper_on ds A /\ good_center st (length A) /\ same_op (elem A) F.
Lemma is_op_same st F G : same_op F G -> is_op st F -> is_op st G.
Proof. intros HFG (A & H1 & H2 & H3 & H4). exists A. repeat (split; auto). intros c c' Hc Hc'. rewrite H4 by auto. auto. Qed.
Lemma keeps_op st st' F : keeps st st' -> is_op st F -> is_op st' F.
Proof. intros HK (A & H1 & H2 & H3 & H4). destruct (HK A H1 H2 H3) as (A' & I1 & I2 & I3 & I4). exists A'. repeat (split; auto). intros c c' Hc Hc'. rewrite I4 by auto. auto. Qed.
Lemma op_scale st F s : is_op st F -> exists st', mpo_scale R rmul s st = Ok st' /\ is_op st' (fun c c' => s *r F c c').
Proof.
  intros (A & H1 & H2 & H3 & H4). assert (LA := oper_len R _ _ H2). destruct (scale_form s st A H1 H3 ltac:(lia)) as (t & E & F1). rewrite F1. eexists. split; [reflexivity|].
  exists (upd A (where_ st) (tscale s t)). split; [split; cbn [mtens mtypes]; [auto|rewrite !upd_length; apply H1]|]. split; [apply scale_oper; auto|]. split; [rewrite upd_length; exact H3|].
  intros c c' Hc Hc'. unfold FinMpoSpec.elem. rewrite (scale_at R r0 r1 radd rmul rsub ropp Rth A (where_ st) t s 1); auto; [|apply H2|rewrite LA; apply cfg_len; auto|rewrite LA; apply cfg_len; auto]. f_equal. apply H4; auto.
Qed.
Lemma op_add dbg a b F G : is_op a F -> is_op b G -> exists st', add2 R r0 radd dbg a b = Ok st' /\ is_op st' (fun c c' => F c c' +r G c c').
Proof.
  intros (A & A1 & A2 & A3 & A4) (B & B1 & B2 & B3 & B4). unfold add2. destruct (mpo_add_ok R r0 radd dbg 0 1 [a; b] a b A B ds eq_refl eq_refl A1 B1 A2 B2 two) as (w' & W1 & W2 & W3 & W4). rewrite W1. cbn [bind]. unfold vget. rewrite W4.
  eexists. split; [reflexivity|]. assert (LA := oper_len R _ _ A2). assert (LB := oper_len R _ _ B2). exists (mpo_sum R r0 radd A B). assert (O := mpo_sum_oper R r0 radd ds A B A2 B2 two). assert (LO := oper_len R _ _ O).
  split; [split; [auto|cbn [mtypes]; rewrite repeat_length; auto]|]. split; auto. split; [left; auto|]. intros c c' Hc Hc'. unfold FinMpoSpec.elem.
  rewrite (mpo_sum_elem R r0 r1 radd rmul rsub ropp Rth A B c c'); try apply A2; try apply B2; try (rewrite LA; apply cfg_len; assumption); try lia.
  f_equal; [apply A4|apply B4]; auto.
Qed.
Lemma op_prod a b F G : is_op a F -> is_op b G -> exists st', mpo_product R r0 radd rmul a b (mpo_new R (length (mtens b))) = Ok st' /\ is_op st' (o_mul ds F G).
Proof.
  intros (A & A1 & A2 & A3 & A4) (B & B1 & B2 & B3 & B4). assert (LA := oper_len R _ _ A2). assert (LB := oper_len R _ _ B2).
  assert (LM : length (mtens b) = length ds) by (rewrite (proj1 B1), map_length; auto). rewrite (mpo_product_ok R r0 radd rmul a b _ A B ds); auto; try lia; [|cbn; rewrite repeat_length; auto|cbn; rewrite repeat_length; auto].
  eexists. split; [reflexivity|]. assert (O := prod_oper R r0 radd rmul ds A B A2 B2). assert (LO := oper_len R _ _ O). exists (mpo_prod R r0 radd rmul A B). split; [split; [auto|cbn [mtypes]; rewrite repeat_length; auto]|]. split; auto. split; [left; auto|].
  intros c c' Hc Hc'. unfold FinMpoSpec.elem. destruct A2 as (FA & A21 & A22), B2 as (FB & B21 & B22). rewrite (prod_elem R r0 r1 radd rmul rsub ropp Rth A B 1 1 c c' 0); auto; try lia; try congruence; [|rewrite LA; apply cfg_len; auto|rewrite LA; apply cfg_len; auto].
  rewrite A21. apply l_ext. intros k Hk. cbn [Nat.div Nat.modulo Nat.divmod fst snd Nat.sub]. f_equal; [apply A4|apply B4]; auto.
Qed.
Lemma op_trace st F : is_op st F -> exists st', mpo_trace R r0 r1 radd rmul st = Ok (o_trace ds F, st') /\ is_op st' F /\ mtens st' = mtens st.
Proof.
  intros (A & A1 & A2 & A3 & A4). rewrite (mpo_trace_ok R r0 r1 radd rmul rsub ropp Rth st A ds); auto; [|lia]. eexists. split; [f_equal; f_equal; apply same_trace; auto|]. split; [|auto]. exists A. split; [split; cbn [mtens mtypes]; [apply A1|rewrite repeat_length; symmetry; apply (oper_len R _ _ A2)]|].
  split; auto. split; [left; auto|auto].
Qed.
Lemma op_bond st F : is_op st F -> exists D, max_bond R st = Ok D.
Proof. intros (A & A1 & A2 & _). apply (max_bond_ok st A); auto. rewrite (oper_len R _ _ A2). lia. Qed.
Lemma op_trunc D st F : is_op st F -> exists st', truncate D st = Ok st' /\ is_op st' F.
Proof. intros HI. assert (HI' := HI). destruct HI as (A & A1 & A2 & A3 & _). destruct (trunc_exact D st A A1 A2 A3) as (st' & E & K). exists st'. split; auto. eapply keeps_op; eauto. Qed.

Lemma step_ok dbg DH Dmax mth t0 n rho term : is_op mth (fun c c' => mtau *r Hop c c') -> 1 <= n -> is_op rho (exp_sum n) -> is_op term (exp_term (if 1 <? n then n - 1 else 1)) ->
  (dbg = true -> Nat.even n = true -> positive (o_trace ds (exp_term n)) = true) ->
  exists rho' term', taylor_step R r0 r1 radd rmul truncate vproduct stop positive inv_nat dbg DH Dmax mth t0 n (rho, term) = Ok (rho', term', if Nat.even n then stop (o_trace ds (exp_term n)) t0 else false) /\
    is_op rho' (exp_sum (S n)) /\ is_op term' (exp_term n).
Proof.
  intros HM Hn HR HT HP. unfold taylor_step.
  assert (S1 : exists term1, (if 1 <? n then
      let! D := max_bond R term in
      let! p := (if DH * D <=? Dmax then let! p := mpo_product R r0 radd rmul term mth (mpo_new R (length (mtens mth))) in let! Dp := max_bond R p in truncate Dp p
                 else vproduct n term mth) in
      mpo_scale R rmul (inv_nat n) p
    else Ok term) = Ok term1 /\ is_op term1 (exp_term n)).
  { destruct (Nat.ltb_spec 1 n) as [L|L].
    - destruct (op_bond _ _ HT) as (D & ED). rewrite ED. cbn [bind].
      assert (P : exists p, (if DH * D <=? Dmax then let! p := mpo_product R r0 radd rmul term mth (mpo_new R (length (mtens mth))) in let! Dp := max_bond R p in truncate Dp p else vproduct n term mth) = Ok p /\
         is_op p (o_mul ds (exp_term (n - 1)) (fun c c' => mtau *r Hop c c'))).
      { destruct (DH * D <=? Dmax).
        - destruct (op_prod _ _ _ _ HT HM) as (p & E1 & E2). rewrite E1. cbn [bind]. destruct (op_bond _ _ E2) as (Dp & E3). rewrite E3. cbn [bind]. apply op_trunc. auto.
        - destruct HT as (A & A1 & A2 & A3 & A4), HM as (B & B1 & B2 & B3 & B4). destruct (vprod_exact n term mth A B A1 B1 A2 B2) as (st' & A' & E & I1 & I2 & I3 & I4). exists st'. split; auto. exists A'. repeat (split; auto).
          intros c c' Hc Hc'. rewrite I4 by auto. apply same_mul; auto. }
      destruct P as (p & E & OP). rewrite E. cbn [bind]. destruct (op_scale p _ (inv_nat n) OP) as (st' & E' & OS). exists st'. split; auto. eapply is_op_same; [|exact OS]. intros c c' Hc Hc'. replace n with (S (n - 1)) at 1 by lia. replace n with (S (n - 1)) at 3 by lia. symmetry. apply term_S; auto.
    - exists term. split; auto. replace n with 1 by lia. auto. }
  destruct S1 as (term1 & E1 & O1). rewrite E1. cbn [bind]. destruct (op_add dbg rho term1 _ _ HR O1) as (rho1 & E2 & O2). rewrite E2. cbn [bind]. destruct (op_trace term1 _ O1) as (term2 & E3 & O3 & _). rewrite E3. cbn [bind].
  destruct (op_bond _ _ O2) as (D2 & E4). rewrite E4. cbn [bind].
  assert (S2 : exists rho2, (if Dmax <? D2 then truncate Dmax rho1 else Ok rho1) = Ok rho2 /\ is_op rho2 (exp_sum (S n))).
  { assert (O2' : is_op rho1 (exp_sum (S n))) by (eapply is_op_same; [|exact O2]; intros c c' Hc Hc'; symmetry; apply sum_S; auto). destruct (Dmax <? D2); [apply op_trunc; auto|eauto]. }
  destruct S2 as (rho2 & E5 & O5). rewrite E5. cbn [bind]. exists rho2, term2. split; [|split; auto]. destruct (Nat.even n) eqn:EV; auto. destruct dbg; cbn [assert_ bind]; auto. rewrite (HP eq_refl eq_refl). auto.
Qed.
Lemma loop_ok dbg DH Dmax mth t0 fuel : forall n rho term, is_op mth (fun c c' => mtau *r Hop c c') -> 1 <= n -> is_op rho (exp_sum n) -> is_op term (exp_term (if 1 <? n then n - 1 else 1)) ->
  (dbg = true -> forall m, n <= m < n + fuel -> Nat.even m = true -> positive (o_trace ds (exp_term m)) = true) ->
  exists rho' term' K, taylor_loop R r0 r1 radd rmul truncate vproduct stop positive inv_nat dbg DH Dmax mth t0 n fuel (rho, term) = Ok (rho', term') /\ is_op rho' (exp_sum K) /\ n <= K <= n + fuel /\
    (forall m, n <= m -> S m < K -> Nat.even m = true -> stop (o_trace ds (exp_term m)) t0 = false) /\
    (K = n + fuel \/ exists m, n <= m /\ K = S m /\ Nat.even m = true /\ stop (o_trace ds (exp_term m)) t0 = true).
Proof.
  induction fuel as [|fuel IH]; intros n rho term HM Hn HR HT HP.
  - exists rho, term, n. cbn. split; auto. split; auto. split; [lia|]. split; [intros; lia|]. left. lia.
  - cbn [taylor_loop]. destruct (step_ok dbg DH Dmax mth t0 n rho term HM Hn HR HT) as (rho1 & term1 & E & O1 & O2); [intros D; apply HP; auto; lia|]. rewrite E. cbn [bind].
    destruct (if Nat.even n then stop (o_trace ds (exp_term n)) t0 else false) eqn:B.
    + exists rho1, term1, (S n). split; auto. split; auto. split; [lia|]. split; [intros; lia|]. right. exists n. destruct (Nat.even n) eqn:EV; [|discriminate]. auto.
    + destruct (IH (S n) rho1 term1) as (rho' & term' & K & I1 & I2 & I3 & I4 & I5); auto; [|intros D m Hm; apply HP; auto; lia|].
      * replace (1 <? S n) with true by (symmetry; apply Nat.ltb_lt; lia). replace (S n - 1) with n by lia. auto.
      * exists rho', term', K. split; auto. split; auto. split; [lia|]. split.
        -- intros m Hm1 Hm2 EV. destruct (Nat.eq_dec m n) as [->|NE]; [rewrite EV in B; auto|]. apply I4; auto. lia.
        -- destruct I5 as [->|(m & M1 & M2 & M3 & M4)]; [left; lia|right; exists m; repeat split; auto; lia].
Qed.
Hypothesis inv_norm : forall x, x <> r0 -> x *r inv x = r1.
Theorem exp_ok dbg st max_order Dmax : holds4 st H -> good_center st (length H) ->
  (dbg = true -> forall m, 1 <= m < max_order -> Nat.even m = true -> positive (o_trace ds (exp_term m)) = true) ->
  exists nrm rho K, exp_mpo R r0 r1 radd rmul norm inv truncate vproduct centralize0 stop positive inv_nat dbg st mtau max_order Dmax = Ok (nrm, rho) /\
    1 <= K <= Nat.max 1 max_order /\
    (forall m, 1 <= m -> S m < K -> Nat.even m = true -> stop (o_trace ds (exp_term m)) (o_trace ds o_id) = false) /\
    (K = Nat.max 1 max_order \/ exists m, 1 <= m /\ K = S m /\ Nat.even m = true /\ stop (o_trace ds (exp_term m)) (o_trace ds o_id) = true) /\
    exists A, holds4 rho A /\ oper_on ds A /\ mcenter rho = (-1)%Z /\
      forall c c', In c (configs ds) -> In c' (configs ds) -> (nrm <> r0 -> nrm *r elem A c c' = exp_sum K c c') /\ elem A c c' = inv nrm *r exp_sum K c c'.
Proof.
  intros HS HG HP. assert (LH := oper_len R _ _ HH). unfold exp_mpo.
  assert (HI : is_op st Hop) by (exists H; repeat (split; auto)). destruct (op_bond _ _ HI) as (DH & E1). rewrite E1. cbn [bind]. destruct (op_scale st _ mtau HI) as (mth & E2 & O2). rewrite E2. cbn [bind].
  rewrite (mpo_identity_ok R r0 r1 st H ds) by (auto; lia). cbn [bind].
  assert (OI : is_op (mkFmpo (map Some (map (id_ten R r0 r1) H)) (repeat NONE (length ds)) (-1)%Z) o_id).
  { exists (map (id_ten R r0 r1) H). split; [split; [auto|cbn [mtypes]; rewrite repeat_length, map_length; auto]|]. split; [apply id_oper; auto|]. split; [left; auto|]. intros c c' Hc Hc'. unfold FinMpoSpec.elem. apply (id_elem R r0 r1 radd rmul rsub ropp Rth).
    - destruct HH as (_ & -> & _). apply cfg_in. auto.
    - rewrite LH. apply cfg_len. auto. }
  destruct (op_trace _ _ OI) as (rho0 & E3 & O3 & _). rewrite E3. cbn [bind].
  destruct (loop_ok dbg DH Dmax mth (o_trace ds o_id) (max_order - 1) 1 rho0 mth) as (rho1 & term1 & K & L1 & L2 & L3 & L4 & L5); auto.
  - eapply is_op_same; [|exact O3]. intros c c' Hc Hc'. unfold FinMpoSpec.exp_sum. cbn [FmpsSpec.sumn]. rewrite term_0 by auto. ring.
  - eapply is_op_same; [|exact O2]. intros c c' Hc Hc'. symmetry. apply term_1; auto.
  - intros D m Hm. apply HP; auto. lia.
  - rewrite L1. cbn [bind fst]. assert (L2' := L2). destruct L2 as (A & A1 & A2 & A3 & A4). destruct (cent_exact rho1 A A1 A2 A3) as (rho2 & C1 & C2). rewrite C1. cbn [bind]. destruct (keeps_op _ _ _ C2 L2') as (B & B1 & B2 & B3 & B4).
    assert (LB := oper_len R _ _ B2). destruct B as [|t B']; [cbn in LB; lia|]. set (B := t :: B') in *. destruct B1 as [BT BY]. unfold mtouch. rewrite vset_ok by lia. cbn [bind]. rewrite (vget_nth (mtens rho2) 0 (Some t)) by (rewrite BT; auto). cbn [bind].
    unfold mderef. cbn [mtens]. rewrite (vget_nth (mtens rho2) 0 (Some t)) by (rewrite BT; auto). cbn [bind]. unfold mput. cbn [mtens mtypes mcenter]. rewrite vset_ok by (rewrite BT, map_length; lia). cbn [bind].
    eexists _, _, K. split; [reflexivity|]. replace (Nat.max 1 max_order) with (1 + (max_order - 1)) by lia. split; auto. split; auto. split; auto.
    exists (upd B 0 (tscale (inv (norm t)) t)). split; [split; cbn [mtens mtypes]; [rewrite map_upd, BT; auto|rewrite !upd_length; auto]|]. split; [apply scale_oper; auto|]. split; [auto|].
    intros c c' Hc Hc'. assert (E : elem (upd B 0 (tscale (inv (norm t)) t)) c c' = inv (norm t) *r exp_sum K c c').
    { unfold FinMpoSpec.elem. rewrite (scale_at R r0 r1 radd rmul rsub ropp Rth B 0 t _ 1); auto; [|apply B2|rewrite LB; apply cfg_len; auto|rewrite LB; apply cfg_len; auto]. f_equal. apply B4; auto. }
    split; auto. intros NZ. rewrite E. transitivity ((norm t *r inv (norm t)) *r exp_sum K c c'); [ring|]. rewrite inv_norm by auto. ring.
Qed.
End Facts.
