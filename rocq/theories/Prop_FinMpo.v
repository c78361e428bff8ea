(** Sums, inner products, products, traces and Taylor series of MPS and MPO.  C52, C53, C54, C56, C57, C58. *)
From Coq Require Import List Arith Lia Bool ZArith Ring Factorial QArith Qcanon.
From Verif Require Import Base FiniteMps FmpsSpec EffHam EffHamSpec FinMpo FinMpoSpec FinMpoFacts FinMpoExp.
Import ListNotations.
Local Open Scope nat_scope.

Section Props.
Variables (R : Type) (r0 r1 : R) (radd rmul rsub : R -> R -> R) (ropp : R -> R).
Variable Rth : ring_theory r0 r1 radd rmul rsub ropp (@eq R).
Variable conj : R -> R.
Hypothesis conj_add : forall a b, conj (radd a b) = radd (conj a) (conj b).
Hypothesis conj_mul : forall a b, conj (rmul a b) = rmul (conj a) (conj b).
Hypothesis conj_0 : conj r0 = r0.
Hypothesis conj_1 : conj r1 = r1.
Variable same_div : ten R -> ten R -> bool.
Notation amp := (amp R r0 r1 radd rmul). Notation elem := (elem R r0 r1 radd rmul).
Notation state_on := (state_on R). Notation oper_on := (oper_on R). Notation holds4 := (holds4 R).

Lemma state_len ds ts : state_on ds ts -> length ts = length ds.
Proof. intros [_ <-]. rewrite map_length. auto. Qed.

(** ** C52 *)
(** sum of two MPS into a third object: amplitudes add, the operands (every object other than the result) are unchanged, all
    flags of the result are NONE and it has no center *)
Theorem C52_mps_sum dbg a b c w ma mb mc A B ds : nth_error w a = Some ma -> nth_error w b = Some mb -> nth_error w c = Some mc -> c <> a -> c <> b ->
  tens ma = map Some A -> tens mb = map Some B -> state_on ds A -> state_on ds B -> 2 <= length ds -> length (tens mc) = length ds -> length (types mc) = length ds ->
  (dbg = true -> forall ta tb, nth_error A 0 = Some ta -> nth_error B 0 = Some tb -> same_div ta tb = true) ->
  exists w' C, mps_add R r0 radd same_div dbg a b c w = Ok w' /\ (forall k, k <> c -> nth_error w' k = nth_error w k) /\
    nth_error w' c = Some (mkFmps (map Some C) (repeat NONE (length ds)) (-1)%Z) /\ state_on ds C /\
    forall s, length s = length ds -> amp C s = radd (amp A s) (amp B s).
Proof.
  intros Ha Hb Hc N1 N2 TA TB SA SB HN L1 L2 HD. destruct (mps_add_ok R r0 radd same_div dbg a b c w ma mb mc A B ds Ha Hb Hc N1 N2 TA TB SA SB HN L1 L2 HD) as (w' & E1 & E2 & E3 & E4).
  assert (LA := state_len _ _ SA). assert (LB := state_len _ _ SB). exists w', (mps_sum R r0 radd A B). repeat (split; auto).
  - apply mps_sum_fit; try apply SA; try apply SB; lia.
  - unfold mps_sum. rewrite add_all_map; auto; [apply SA|lia].
  - intros s Hs. apply (mps_sum_amp R r0 r1 radd rmul rsub ropp Rth); try apply SA; try apply SB; lia.
Qed.
(** a += b (b may be a itself) *)
Theorem C52_mpo_sum dbg a b w ma mb A B ds : nth_error w a = Some ma -> nth_error w b = Some mb -> holds4 ma A -> holds4 mb B -> oper_on ds A -> oper_on ds B -> 2 <= length ds ->
  exists w' C, mpo_add R r0 radd dbg a b w = Ok w' /\ (forall k, k <> a -> nth_error w' k = nth_error w k) /\
    nth_error w' a = Some (mkFmpo (map Some C) (repeat NONE (length ds)) (-1)%Z) /\ oper_on ds C /\
    forall s s', length s = length ds -> length s' = length ds -> elem C s s' = radd (elem A s s') (elem B s s').
Proof.
  intros Ha Hb HA HB OA OB HN. destruct (mpo_add_ok R r0 radd dbg a b w ma mb A B ds Ha Hb HA HB OA OB HN) as (w' & E1 & E2 & E3 & E4). assert (LA := oper_len R _ _ OA). assert (LB := oper_len R _ _ OB).
  exists w', (mpo_sum R r0 radd A B). split; auto. split; auto. split; auto. split; [apply mpo_sum_oper; auto|].
  intros s s' Hs Hs'. apply (mpo_sum_elem R r0 r1 radd rmul rsub ropp Rth); try apply OA; try apply OB; lia.
Qed.
(** one site: the result has a right end of dimension two instead of one (never a state), and its first element is that of A alone *)
Theorem C52_single_site_refuted a b c w ma mb mc ta tb d : nth_error w a = Some ma -> nth_error w b = Some mb -> nth_error w c = Some mc -> c <> a -> c <> b ->
  tens ma = [Some ta] -> tens mb = [Some tb] -> state_on [d] [ta] -> state_on [d] [tb] -> length (tens mc) = 1 -> length (types mc) = 1 ->
  exists w' t, mps_add R r0 radd same_div false a b c w = Ok w' /\ nth_error w' c = Some (mkFmps [Some t] [NONE] (-1)%Z) /\ d2 t = 2 /\ ~ state_on [d] [t] /\ forall s, el t 0 s 0 = el ta 0 s 0.
Proof.
  intros Ha Hb Hc N1 N2 TA TB [FA DA] [FB DB] L1 L2. unfold mps_add. rewrite !(vget_nth _ _ _ Ha), (vget_nth _ _ _ Hb), (vget_nth _ _ _ Hc). cbn [bind assert_]. rewrite TA. cbn [length for_loop].
  rewrite (vget_nth _ _ _ Hc). cbn [bind]. unfold alloc, put. rewrite vset_ok by lia. cbn [bind]. assert (LC : c < length w) by (apply nth_error_Some; congruence). rewrite vset_ok by auto. cbn [bind].
  set (w1 := upd w c _). assert (W1 : nth_error w1 a = Some ma) by (unfold w1; rewrite nth_error_upd_other; auto). assert (W2 : nth_error w1 b = Some mb) by (unfold w1; rewrite nth_error_upd_other; auto).
  rewrite (vget_nth _ _ _ W1). cbn [bind]. rewrite (deref_at R [ta] ma 0 ta) by auto. cbn [bind]. rewrite (vget_nth _ _ _ W2). cbn [bind]. rewrite (deref_at R [tb] mb 0 tb) by auto. cbn [bind]. change (0 =? 0) with true. cbn match.
  destruct FA as [FA1 FA2], FB as [FB1 FB2]. cbn in FA2, FB2. cbn in DA, DB. rewrite (expand_eq R r0 radd); [|congruence|congruence|discriminate]. cbn [bind].
  unfold w1. unfold vget. rewrite nth_error_upd_same by auto. cbn [bind]. unfold assign, touch, put, flag. cbn [tens types center]. rewrite !vset_ok by (rewrite ?upd_length; lia). cbn [bind tens types center]. unfold vget. rewrite nth_error_upd_same by lia. cbn [bind].
  cbn [bind tens types center]. rewrite vset_ok by (rewrite upd_length; lia). cbn [bind tens types center]. rewrite vset_ok by (rewrite upd_length; assumption). cbn [bind]. eexists _, _. split; [reflexivity|]. split; [rewrite nth_error_upd_same by (rewrite upd_length; auto); f_equal|].
  - destruct (tens mc) as [|x [|]], (types mc) as [|y [|]]; cbn in L1, L2; try lia. reflexivity.
  - cbn [d2 ex_t]. split; [lia|]. split; [intros [[_ X] _]; cbn in X; lia|]. intros s. cbn [el ex_t]. cbn [andb orb negb]. destruct (Nat.ltb_spec 0 (d2 ta)); [auto|lia].
Qed.
(** the result must be another object than the operands: it is cleared before they are read *)
Theorem C52_aliasing_refuted a b w ma mb A B ds : nth_error w a = Some ma -> nth_error w b = Some mb -> tens ma = map Some A -> tens mb = map Some B -> state_on ds A -> state_on ds B -> 1 <= length ds ->
  length (types ma) = length ds -> mps_add R r0 radd same_div false a b a w = Ub.
Proof.
  intros Ha Hb TA TB SA SB HN LT. assert (LA := state_len _ _ SA). unfold mps_add. rewrite !(vget_nth _ _ _ Ha), (vget_nth _ _ _ Hb). cbn [bind assert_]. rewrite TA, map_length, LA. destruct (length ds) as [|n]; [lia|]. cbn [for_loop].
  rewrite (vget_nth _ _ _ Ha). cbn [bind]. unfold alloc, put. rewrite vset_ok by (rewrite TA, map_length; lia). cbn [bind]. assert (LC : a < length w) by (apply nth_error_Some; congruence). rewrite vset_ok by auto. cbn [bind].
  unfold vget at 1. rewrite nth_error_upd_same by auto. cbn [bind]. unfold deref at 1. cbn [tens]. unfold vget at 1. rewrite nth_error_upd_same by (rewrite TA, map_length; lia). reflexivity.
Qed.

(** ** C56: inner product *)
Theorem C56_inner_product ma mb A B ds : tens ma = map Some A -> tens mb = map Some B -> state_on ds A -> state_on ds B -> 1 <= length ds ->
  mps_inner R r0 r1 radd rmul conj ma mb = Ok (overlap R r0 r1 radd rmul conj ds A B).
Proof. exact (mps_inner_ok R r0 r1 radd rmul rsub ropp Rth conj conj_add conj_mul conj_0 conj_1 ma mb A B ds). Qed.

(** ** C57: product and identity *)
Theorem C57_product p1 p2 out A B ds : holds4 p1 A -> holds4 p2 B -> oper_on ds A -> oper_on ds B -> length (mtens out) = length ds -> length (mtypes out) = length ds -> 1 <= length ds ->
  exists C, mpo_product R r0 radd rmul p1 p2 out = Ok (mkFmpo (map Some C) (repeat NONE (length ds)) (-1)%Z) /\ oper_on ds C /\
    forall s s', In s (configs ds) -> In s' (configs ds) -> elem C s s' = o_mul R r0 radd rmul ds (elem A) (elem B) s s'.
Proof.
  intros HA HB OA OB L1 L2 HN. exists (mpo_prod R r0 radd rmul A B). split; [apply mpo_product_ok; auto|]. split; [apply prod_oper; auto|]. intros s s' Hs Hs'. assert (LA := oper_len R _ _ OA). assert (LB := oper_len R _ _ OB).
  assert (C1 := cfg_len ds s Hs). assert (C2 := cfg_len ds s' Hs'). destruct OA as (FA & A1 & A2), OB as (FB & B1 & B2).
  unfold FinMpoSpec.elem. rewrite (prod_elem R r0 r1 radd rmul rsub ropp Rth A B 1 1 s s' 0); auto; try lia; try congruence. rewrite A1. apply l_ext. intros k Hk. reflexivity.
Qed.
Theorem C57_identity h A ds : holds4 h A -> oper_on ds A -> 1 <= length ds ->
  exists C, mpo_identity R r0 r1 h = Ok (mkFmpo (map Some C) (repeat NONE (length ds)) (-1)%Z) /\ oper_on ds C /\
    forall s s', In s (configs ds) -> In s' (configs ds) -> elem C s s' = if list_eq_dec Nat.eq_dec s s' then r1 else r0.
Proof.
  intros HA OA HN. exists (map (id_ten R r0 r1) A). split; [apply mpo_identity_ok; auto|]. split; [apply id_oper; auto|]. intros s s' Hs Hs'. apply (id_elem R r0 r1 radd rmul rsub ropp Rth).
  - destruct OA as (_ & -> & _). apply cfg_in. auto.
  - rewrite (oper_len R _ _ OA). apply cfg_len. auto.
Qed.

(** ** C58: trace; the tensors stay, but all flags and the center are forgotten *)
Theorem C58_trace st A ds : holds4 st A -> oper_on ds A -> 1 <= length ds ->
  mpo_trace R r0 r1 radd rmul st = Ok (lsum R r0 radd (configs ds) (fun c => elem A c c), mkFmpo (mtens st) (repeat NONE (length ds)) (-1)%Z).
Proof. exact (mpo_trace_ok R r0 r1 radd rmul rsub ropp Rth st A ds). Qed.

(** ** C54 *)
Variables (norm : ten4 R -> R) (inv : R -> R).
(** a flag LEFT or RIGHT promises an isometry *)
Notation sumn := (sumn R r0 radd).
Definition left_can (t : ten4 R) : Prop := forall r r', r < m3 t -> r' < m3 t ->
  sumn (m0 t) (fun l => sumn (m1 t) (fun s => sumn (m2 t) (fun s' => rmul (conj (e4 t l s s' r)) (e4 t l s s' r')))) = delta R r0 r1 r r'.
Definition right_can (t : ten4 R) : Prop := forall l l', l < m0 t -> l' < m0 t ->
  sumn (m3 t) (fun r => sumn (m1 t) (fun s => sumn (m2 t) (fun s' => rmul (conj (e4 t l s s' r)) (e4 t l' s s' r)))) = delta R r0 r1 l l'.
Definition promise (f : cano) (t : ten4 R) : Prop := match f with LEFT => left_can t | RIGHT => right_can t | NONE => True end.
Definition truthful4 (st : fmpo R) (A : list (ten4 R)) : Prop := forall i f t, nth_error (mtypes st) i = Some f -> nth_error A i = Some t -> promise f t.
(** a center means: LEFT before it, RIGHT behind it *)
Definition centered (st : fmpo R) : Prop := mcenter st = (-1)%Z \/ exists k, k < length (mtens st) /\ mcenter st = Z.of_nat k /\ flags_at (length (mtens st)) k (mtypes st).
(** what is known of an object between two operations *)
Definition fine (ds : list nat) (st : fmpo R) (A : list (ten4 R)) : Prop := holds4 st A /\ oper_on ds A /\ centered st /\ truthful4 st A.

Lemma centered_good st A : holds4 st A -> centered st -> good_center R st (length A).
Proof. intros [HT _] [E|(k & K1 & K2 & _)]; [left; auto|right]. rewrite K2. rewrite HT, map_length in K1. lia. Qed.
Lemma scaled_fine ds st A i t s : fine ds st A -> nth_error A i = Some t -> i = where_ R st ->
  fine ds (mkFmpo (map Some (upd A i (tscale R rmul s t))) (upd (mtypes st) i NONE) (mcenter st)) (upd A i (tscale R rmul s t)) /\
  (mcenter st <> (-1)%Z -> upd (mtypes st) i NONE = mtypes st) /\
  forall c c', length c = length ds -> length c' = length ds -> elem (upd A i (tscale R rmul s t)) c c' = rmul s (elem A c c').
Proof.
  intros ([HT HY] & O & C & T) E Hi. assert (LA := oper_len R _ _ O). assert (LM : length (mtens st) = length A) by (rewrite HT, map_length; auto). split; [|split].
  - split; [split; cbn [mtens mtypes]; rewrite ?upd_length; auto|]. split; [apply scale_oper; auto|]. split.
    + unfold centered. cbn [mtens mtypes mcenter]. rewrite map_length, upd_length, <- LM. destruct C as [C|(k & K1 & K2 & K3)]; [left; auto|right]. exists k. split; auto. split; auto.
      replace (upd (mtypes st) i NONE) with (mtypes st); auto. symmetry. apply (flags_keep (length (mtens st))); rewrite Hi; unfold where_; rewrite K2; destruct (Z.eqb_spec (Z.of_nat k) (-1)); try lia; cbn [negb]; rewrite Nat2Z.id; auto.
    + intros j f u Hf Hu. cbn [mtypes] in Hf. destruct (Nat.eq_dec j i) as [->|NE].
      * rewrite nth_error_upd_same in Hf by (rewrite HY; apply nth_error_Some; congruence). injection Hf as <-. exact I.
      * rewrite nth_error_upd_other in Hf, Hu by auto. eapply T; eauto.
  - intros NC. destruct C as [C|(k & K1 & K2 & K3)]; [congruence|]. apply (flags_keep (length (mtens st))); rewrite Hi; unfold where_; rewrite K2; destruct (Z.eqb_spec (Z.of_nat k) (-1)); try lia; cbn [negb]; rewrite Nat2Z.id; auto.
  - intros c c' Hc Hc'. unfold FinMpoSpec.elem. apply (scale_at R r0 r1 radd rmul rsub ropp Rth A i t s 1); auto; try lia. apply O.
Qed.
(** Scale multiplies the operator and keeps the center (with a center, the flags as well) *)
Theorem C54_scale ds st A s : fine ds st A -> 1 <= length ds ->
  exists st' A', mpo_scale R rmul s st = Ok st' /\ fine ds st' A' /\ mcenter st' = mcenter st /\ (mcenter st <> (-1)%Z -> mtypes st' = mtypes st) /\
    forall c c', length c = length ds -> length c' = length ds -> elem A' c c' = rmul s (elem A c c').
Proof.
  intros F HN. assert (F' := F). destruct F' as (H & O & C & T). destruct (scale_form R rmul s st A H (centered_good st A H C)) as (t & E1 & E2); [rewrite (oper_len R _ _ O); auto|].
  destruct (scaled_fine ds st A _ t s F E1 eq_refl) as (X1 & X2 & X3). eexists _, _. split; [exact E2|]. split; [exact X1|]. split; auto.
Qed.
(** Normalize divides by the norm of the center tensor (of the first one, without a center), which it returns *)
Theorem C54_normalize ds st A : fine ds st A -> 1 <= length ds ->
  exists n st' A' t, mpo_normalize R rmul norm inv st = Ok (n, st') /\ fine ds st' A' /\ mcenter st' = mcenter st /\ (mcenter st <> (-1)%Z -> mtypes st' = mtypes st) /\
    nth_error A (if (mcenter st =? -1)%Z then 0 else Z.to_nat (mcenter st)) = Some t /\ n = norm t /\
    forall c c', length c = length ds -> length c' = length ds -> elem A' c c' = rmul (inv n) (elem A c c').
Proof.
  intros F HN. assert (F' := F). destruct F' as (H & O & C & T). destruct (normalize_form R rmul norm inv st A H (centered_good st A H C)) as (t & E1 & E2); [rewrite (oper_len R _ _ O); auto|].
  destruct (scaled_fine ds st A _ t (inv (norm t)) F E1 eq_refl) as (X1 & X2 & X3). eexists _, _, _, t. split; [exact E2|]. split; [exact X1|]. split; auto. split; auto. split; [|auto]. unfold where_ in E1. destruct (mcenter st =? -1)%Z; auto.
Qed.
(** Dump, then Load into any object of that length: tensors and center are those of the dumped one, the flags follow the center *)
Theorem C54_dump_load ds st A k d st2 : fine ds st A -> mcenter st = Z.of_nat k -> length (mtens st2) = length ds -> length (mtypes st2) = length ds ->
  exists d', mpo_dump R st d = Ok d' /\ mpo_load R (Some d') st2 = Ok (true, st).
Proof.
  intros (H & O & C & T) HC L1 L2. assert (LA := oper_len R _ _ O). destruct (dump_form R st A d H) as (d' & D1 & D2 & D3). exists d'. split; auto.
  rewrite (load_form R d' A st2); [|intros i t E; rewrite D3, E; auto|lia]. rewrite D2. destruct C as [C|(k' & K1 & K2 & K3)]; [lia|]. destruct H as [HT HY].
  assert (LM : length (mtens st) = length ds) by (rewrite HT, map_length; auto).
  destruct (set_center_form R (mkFmpo (map Some A) (mtypes st2) (mcenter st)) k' (length ds)) as (ty & S1 & S2); cbn [mtens mtypes mcenter]; auto; try lia; [rewrite map_length; auto|]. rewrite S1. cbn [bind mtens mcenter]. f_equal. f_equal.
  destruct st as [ts ys c]. cbn [mtens mtypes mcenter] in *. f_equal; auto. rewrite LM in K3. destruct K3 as [K3 K4], S2 as [S2 S3]. apply nth_error_ext. intros i. destruct (Nat.lt_ge_cases i (length ds)) as [Hi|Hi]; [rewrite K4, S3; auto|].
  rewrite !(proj2 (nth_error_None _ _)); auto; lia.
Qed.
(** without a center the tensors are restored but the flags stay those of the object loaded into *)
Theorem C54_load_keeps_flags ds st A d st2 : fine ds st A -> mcenter st = (-1)%Z -> length (mtens st2) = length ds ->
  exists d', mpo_dump R st d = Ok d' /\ mpo_load R (Some d') st2 = Ok (true, mkFmpo (mtens st) (mtypes st2) (-1)%Z).
Proof.
  intros (H & O & C & T) HC L1. assert (LA := oper_len R _ _ O). destruct (dump_form R st A d H) as (d' & D1 & D2 & D3). exists d'. split; auto.
  rewrite (load_form R d' A st2); [|intros i t E; rewrite D3, E; auto|lia]. rewrite D2, HC. cbn. rewrite (proj1 H). auto.
Qed.
(** nothing happens without the directory *)
Theorem C54_no_directory st : mpo_load R None st = Ok (false, st).
Proof. reflexivity. Qed.
(** every history of scaling, normalising, taking the trace, saving and loading back *)
Inductive mop : Type := MScale (s : R) | MNorm | MTrace | MSaveLoad (d : option (mdir R)).
Definition mstep (o : mop) (st : fmpo R) : res (fmpo R) :=
  match o with
  | MScale s => mpo_scale R rmul s st
  | MNorm => let! (n, st) := mpo_normalize R rmul norm inv st in Ok st
  | MTrace => let! (n, st) := mpo_trace R r0 r1 radd rmul st in Ok st
  | MSaveLoad d => let! d := mpo_dump R st d in let! (b, st) := mpo_load R (Some d) st in Ok st
  end.
Fixpoint mrun (l : list mop) (st : fmpo R) : res (fmpo R) := match l with [] => Ok st | o :: l => let! st := mstep o st in mrun l st end.
Definition forgets (o : mop) : bool := match o with MTrace => true | _ => false end.
Theorem C54_histories ds l : forall st A, fine ds st A -> 1 <= length ds ->
  exists st' A' x, mrun l st = Ok st' /\ fine ds st' A' /\ mcenter st' = (if existsb forgets l then (-1)%Z else mcenter st) /\
    forall c c', length c = length ds -> length c' = length ds -> elem A' c c' = rmul x (elem A c c').
Proof.
  induction l as [|o l IH]; intros st A F HN.
  - exists st, A, r1. repeat (split; auto; try apply F). intros. symmetry. apply (Rmul_1_l Rth).
  - assert (X : exists st1 A1 x, mstep o st = Ok st1 /\ fine ds st1 A1 /\ mcenter st1 = (if forgets o then (-1)%Z else mcenter st) /\ forall c c', length c = length ds -> length c' = length ds -> elem A1 c c' = rmul x (elem A c c')).
    { destruct o as [s| | |d]; cbn [mstep forgets].
      - destruct (C54_scale ds st A s F HN) as (st1 & A1 & E1 & E2 & E3 & _ & E4). exists st1, A1, s. auto.
      - destruct (C54_normalize ds st A F HN) as (n & st1 & A1 & t & E1 & E2 & E3 & _ & _ & _ & E4). rewrite E1. cbn [bind]. exists st1, A1, (inv n). auto.
      - assert (F' := F). destruct F' as (H & O & C & T). rewrite (C58_trace st A ds H O HN). cbn [bind]. eexists _, A, r1. split; [reflexivity|]. split; [|split; [auto|intros; symmetry; apply (Rmul_1_l Rth)]].
        split; [split; cbn [mtens mtypes]; [apply H|rewrite repeat_length; symmetry; apply (oper_len R _ _ O)]|]. split; auto. split; [left; auto|]. intros i f t Hf _. cbn [mtypes] in Hf. apply nth_error_In, repeat_spec in Hf. rewrite Hf. exact I.
      - assert (F' := F). destruct F' as (H & O & C & T). assert (L1 : length (mtens st) = length ds) by (rewrite (proj1 H), map_length; apply (oper_len R _ _ O)). assert (L2 : length (mtypes st) = length ds) by (rewrite (proj2 H); apply (oper_len R _ _ O)).
        exists st, A, r1. assert (S : exists d', mpo_dump R st d = Ok d' /\ mpo_load R (Some d') st = Ok (true, st)).
        { destruct C as [C|(k & K1 & K2 & K3)]; [|apply (C54_dump_load ds st A k); auto]. destruct (C54_load_keeps_flags ds st A d st F C L1) as (d' & D1 & D2). exists d'. split; auto. rewrite D2. f_equal. f_equal. destruct st. cbn in *. rewrite C. auto. }
        destruct S as (d' & D1 & D2). rewrite D1. cbn [bind]. rewrite D2. cbn [bind]. repeat (split; auto). intros. symmetry. apply (Rmul_1_l Rth). }
    destruct X as (st1 & A1 & x & E1 & F1 & C1 & V1). destruct (IH st1 A1 F1 HN) as (st' & A' & y & E2 & F2 & C2 & V2). exists st', A', (rmul y x). cbn [mrun]. rewrite E1. cbn [bind]. repeat (split; auto; try apply F2).
    + rewrite C2, C1. cbn [existsb]. destruct (forgets o), (existsb forgets l); auto.
    + intros c c' Hc Hc'. rewrite V2, V1 by auto. apply (Rmul_assoc Rth).
Qed.

(** ** C53 *)
Variable ds : list nat.
Hypothesis two : 2 <= length ds.
Variables (truncate : nat -> fmpo R -> res (fmpo R)) (vproduct : nat -> fmpo R -> fmpo R -> res (fmpo R)) (centralize0 : fmpo R -> res (fmpo R)).
Variables (stop : R -> R -> bool) (positive : R -> bool) (inv_nat cf : nat -> R).
Notation same_op := (same_op R ds). Notation good_center := (good_center R).
(** nothing is cut off: truncation, variational product and centralisation return the operator they should *)
Definition same_operator (st st' : fmpo R) : Prop := forall A, holds4 st A -> oper_on ds A -> good_center st (length A) ->
  exists A', holds4 st' A' /\ oper_on ds A' /\ good_center st' (length A') /\ forall c c', In c (configs ds) -> In c' (configs ds) -> elem A' c c' = elem A c c'.
Hypothesis trunc_exact : forall D st A, holds4 st A -> oper_on ds A -> good_center st (length A) -> exists st', truncate D st = Ok st' /\ same_operator st st'.
Hypothesis vprod_exact : forall n p q A B, holds4 p A -> holds4 q B -> oper_on ds A -> oper_on ds B ->
  exists st' A', vproduct n p q = Ok st' /\ holds4 st' A' /\ oper_on ds A' /\ good_center st' (length A') /\
    forall c c', In c (configs ds) -> In c' (configs ds) -> elem A' c c' = o_mul R r0 radd rmul ds (elem A) (elem B) c c'.
Hypothesis cent_exact : forall st A, holds4 st A -> oper_on ds A -> good_center st (length A) -> exists st', centralize0 st = Ok st' /\ same_operator st st'.
Hypothesis inv_ok : forall n, 1 <= n -> rmul (rnat R r0 r1 radd n) (inv_nat n) = r1.
(** [cf n] is 1 / n! *)
Hypothesis cf_ok : forall n, rmul (rnat R r0 r1 radd (fact n)) (cf n) = r1.
Hypothesis inv_norm : forall x, x <> r0 -> rmul x (inv x) = r1.
Notation term mtau A n := (exp_term R r0 r1 radd rmul ds cf mtau A n).
(** the result times the returned norm is the sum of the orders 0 .. K - 1 where K is max_order (1 for max_order = 0), or less if an
    even order met the stopping test; no earlier even order met it *)
Theorem C53_taylor mtau H dbg st max_order Dmax : oper_on ds H -> holds4 st H -> good_center st (length H) ->
  (dbg = true -> forall m, 1 <= m < max_order -> Nat.even m = true -> positive (o_trace R r0 radd ds (term mtau (elem H) m)) = true) ->
  exists nrm rho K, exp_mpo R r0 r1 radd rmul norm inv truncate vproduct centralize0 stop positive inv_nat dbg st mtau max_order Dmax = Ok (nrm, rho) /\
    1 <= K <= Nat.max 1 max_order /\
    (forall m, 1 <= m -> S m < K -> Nat.even m = true -> stop (o_trace R r0 radd ds (term mtau (elem H) m)) (o_trace R r0 radd ds (o_id R r0 r1)) = false) /\
    (K = Nat.max 1 max_order \/ exists m, 1 <= m /\ K = S m /\ Nat.even m = true /\ stop (o_trace R r0 radd ds (term mtau (elem H) m)) (o_trace R r0 radd ds (o_id R r0 r1)) = true) /\
    exists A, holds4 rho A /\ oper_on ds A /\ mcenter rho = (-1)%Z /\
      forall c c', In c (configs ds) -> In c' (configs ds) ->
        (nrm <> r0 -> rmul nrm (elem A c c') = exp_sum R r0 r1 radd rmul ds cf mtau (elem H) K c c') /\
        elem A c c' = rmul (inv nrm) (exp_sum R r0 r1 radd rmul ds cf mtau (elem H) K c c').
Proof.
  intros HH HS HG HP.
  exact (exp_ok R r0 r1 radd rmul rsub ropp Rth norm inv ds two truncate vproduct centralize0 stop positive inv_nat cf trunc_exact vprod_exact cent_exact inv_ok cf_ok H mtau HH inv_norm dbg st max_order Dmax HS HG HP).
Qed.
(** the highest order is max_order - 1: with max_order = 1 (or 0) the answer is the identity *)
Theorem C53_order_zero mtau H dbg st max_order Dmax : oper_on ds H -> holds4 st H -> good_center st (length H) -> max_order <= 1 ->
  exists nrm rho A, exp_mpo R r0 r1 radd rmul norm inv truncate vproduct centralize0 stop positive inv_nat dbg st mtau max_order Dmax = Ok (nrm, rho) /\ holds4 rho A /\
    forall c c', In c (configs ds) -> In c' (configs ds) -> elem A c c' = rmul (inv nrm) (if list_eq_dec Nat.eq_dec c c' then r1 else r0).
Proof.
  intros HH HS HG HM. destruct (C53_taylor mtau H dbg st max_order Dmax HH HS HG) as (nrm & rho & K & E & HK & _ & _ & A & A1 & A2 & A3 & A4); [intros; lia|]. exists nrm, rho, A. split; auto. split; auto. intros c c' Hc Hc'. destruct (A4 c c' Hc Hc') as [_ ->]. f_equal.
  replace K with 1 by lia. unfold FinMpoSpec.exp_sum. cbn [FmpsSpec.sumn]. unfold FinMpoSpec.exp_term. cbn [FinMpoSpec.rpow FinMpoSpec.o_pow]. assert (X := cf_ok 0). cbn in X.
  assert (C0 : cf 0 = r1) by exact (cf_0 R r0 r1 radd rmul rsub ropp Rth cf cf_ok). rewrite C0. rewrite !(Rmul_1_l Rth). first [apply (Radd_0_l Rth) | rewrite (Radd_comm Rth); apply (Radd_0_l Rth)].
Qed.
End Props.
Print Assumptions C52_mps_sum.
Print Assumptions C52_mpo_sum.
Print Assumptions C52_single_site_refuted.
Print Assumptions C52_aliasing_refuted.
Print Assumptions C56_inner_product.
Print Assumptions C57_product.
Print Assumptions C57_identity.
Print Assumptions C58_trace.
Print Assumptions C54_scale.
Print Assumptions C54_normalize.
Print Assumptions C54_dump_load.
Print Assumptions C54_load_keeps_flags.
Print Assumptions C54_no_directory.
Print Assumptions C54_histories.
Print Assumptions C53_taylor.
Print Assumptions C53_order_zero.

(** ** Concrete cases over the integers *)
Definition zt (a b c : nat) (l : list Z) : ten Z := mkTen a b c (fun x s y => nth ((x * b + s) * c + y) l 0%Z).
Definition exA : list (ten Z) := [zt 1 2 2 [1; 2; 3; 4]%Z; zt 2 2 1 [1; -1; 2; 5]%Z].
Definition exB : list (ten Z) := [zt 1 2 1 [2; -3]%Z; zt 1 2 1 [1; 7]%Z].
Definition exW : list (fmps Z) := [mkFmps (map Some exA) [NONE; NONE] (-1)%Z; mkFmps (map Some exB) [NONE; RIGHT] 0%Z; mkFmps [None; None] [LEFT; NONE] 1%Z].
Example exA_state : state_on Z [2; 2] exA /\ state_on Z [2; 2] exB.
Proof. repeat split. Qed.
Example C52_example : exists w' C, mps_add Z 0%Z Z.add (fun _ _ => true) true 0 1 2 exW = Ok w' /\
  nth_error w' 2 = Some (mkFmps (map Some C) [NONE; NONE] (-1)%Z) /\ map (amp Z 0%Z 1%Z Z.add Z.mul C) [[0; 0]; [0; 1]; [1; 0]; [1; 1]] = [7; 23; 8; -4]%Z.
Proof.
  destruct (C52_mps_sum Z 0%Z 1%Z Z.add Z.mul Z.sub Z.opp Zth (fun _ _ => true) true 0 1 2 exW _ _ _ exA exB [2; 2] eq_refl eq_refl eq_refl ltac:(discriminate) ltac:(discriminate) eq_refl eq_refl
    (proj1 exA_state) (proj2 exA_state) (le_n 2) eq_refl eq_refl ltac:(auto)) as (w' & C & E1 & E2 & E3 & E4 & E5).
  exists w', C. split; auto. split; auto. cbn [map]. rewrite !E5 by auto. reflexivity.
Qed.
Example C56_example : mps_inner Z 0%Z 1%Z Z.add Z.mul (fun x => x) (nth 0 exW (mkFmps [] [] 0%Z)) (nth 1 exW (mkFmps [] [] 0%Z)) = Ok (-254)%Z.
Proof. reflexivity. Qed.
Definition z4 (a b c : nat) (l : list Z) : ten4 Z := mkTen4 a b b c (fun x s s' y => nth (((x * b + s) * b + s') * c + y) l 0%Z).
(** one site each of dimension 1: scalars *)
Definition one : ten4 Z := z4 1 1 1 [1%Z].
Definition exP : list (ten4 Z) := [z4 1 2 2 [1; 0; 2; 3; -1; 1; 0; 2]%Z; z4 2 2 1 [1; 2; 0; 1; 3; 1; -2; 1]%Z].
Definition exQ : list (ten4 Z) := [z4 1 2 1 [1; 2; 3; 4]%Z; z4 1 2 1 [0; 1; 1; 0]%Z].
Example exP_oper : oper_on Z [2; 2] exP /\ oper_on Z [2; 2] exQ.
Proof. repeat split. Qed.
Example C57_example : exists C, mpo_product Z 0%Z Z.add Z.mul (mpo_of Z (map Some exP)) (mpo_of Z (map Some exQ)) (mpo_new Z 2) = Ok (mkFmpo (map Some C) [NONE; NONE] (-1)%Z) /\
  elem Z 0%Z 1%Z Z.add Z.mul C [0; 1] [1; 0] = 23%Z.
Proof. exists (mpo_prod Z 0%Z Z.add Z.mul exP exQ). split; reflexivity. Qed.
Example C58_example : exists st, mpo_trace Z 0%Z 1%Z Z.add Z.mul (mpo_of Z (map Some exP)) = Ok (10%Z, st).
Proof. eexists. reflexivity. Qed.
(** C54: an object with a center, that scaling, saving and loading keep *)
Definition exC : fmpo Z := mkFmpo [Some one; Some (z4 1 1 1 [5%Z]); Some one] [LEFT; NONE; RIGHT] 1%Z.
Definition exCt : list (ten4 Z) := [one; z4 1 1 1 [5%Z]; one].
Lemma one_left : left_can Z 0%Z 1%Z Z.add Z.mul (fun x => x) one.
Proof. intros r r' H1 H2. cbn in H1, H2. replace r with 0 by lia. replace r' with 0 by lia. reflexivity. Qed.
Lemma one_right : right_can Z 0%Z 1%Z Z.add Z.mul (fun x => x) one.
Proof. intros r r' H1 H2. cbn in H1, H2. replace r with 0 by lia. replace r' with 0 by lia. reflexivity. Qed.
Example C54_example : fine Z 0%Z 1%Z Z.add Z.mul (fun x => x) [1; 1; 1] exC exCt.
Proof.
  split; [split; reflexivity|]. split; [repeat split|]. split.
  - right. exists 1. split; [cbn; lia|]. split; auto. split; auto. intros i Hi. destruct i as [|[|[|i]]]; auto. cbn in Hi. lia.
  - intros i f t Hf Ht. destruct i as [|[|[|i]]]; try (injection Hf as <-; injection Ht as <-; cbn [promise]; auto using one_left, one_right). destruct i; discriminate.
Qed.
(** Finding: loading an MPO without center over one that had a center leaves flags that are not true of the loaded tensors; the
    same when the directory has no center file *)
Definition exU : fmpo Z := mkFmpo [Some (z4 1 1 1 [2%Z]); Some one; Some one] [NONE; NONE; NONE] (-1)%Z.
Definition exUt : list (ten4 Z) := [z4 1 1 1 [2%Z]; one; one].
Theorem C54_stale_flags_refuted : exists ds st A st2 A2 d st', fine Z 0%Z 1%Z Z.add Z.mul (fun x => x) ds st A /\ fine Z 0%Z 1%Z Z.add Z.mul (fun x => x) ds st2 A2 /\
  mpo_dump Z st None = Ok d /\ mpo_load Z (Some d) st2 = Ok (true, st') /\ holds4 Z st' A /\ ~ truthful4 Z 0%Z 1%Z Z.add Z.mul (fun x => x) st' A.
Proof.
  exists [1; 1; 1], exU, exUt, exC, exCt, (mkMdir (fun j => if j =? 2 then Some one else if j =? 1 then Some one else if j =? 0 then Some (z4 1 1 1 [2%Z]) else None) (Some (-1)%Z)), (mkFmpo (map Some exUt) [LEFT; NONE; RIGHT] (-1)%Z).
  split; [|split; [apply C54_example|]].
  - split; [split; reflexivity|]. split; [repeat split|]. split; [left; auto|]. intros i f t Hf _. destruct i as [|[|[|i]]]; try (injection Hf as <-; exact I). destruct i; discriminate.
  - split; [reflexivity|]. split; [reflexivity|]. split; [split; reflexivity|]. intros T. specialize (T 0 LEFT _ eq_refl eq_refl). specialize (T 0 0 (le_n 1) (le_n 1)). discriminate.
Qed.
Theorem C54_no_center_file_refuted : exists d st', mpo_load Z (Some d) exC = Ok (true, st') /\ mcenter st' = 1%Z /\ holds4 Z st' exUt /\ ~ truthful4 Z 0%Z 1%Z Z.add Z.mul (fun x => x) st' exUt.
Proof.
  exists (mkMdir (fun j => nth_error exUt j) None), (mkFmpo (map Some exUt) [LEFT; NONE; RIGHT] 1%Z). split; [reflexivity|]. split; auto. split; [split; reflexivity|].
  intros T. specialize (T 0 LEFT _ eq_refl eq_refl). specialize (T 0 0 (le_n 1) (le_n 1)). discriminate.
Qed.
Print Assumptions C54_stale_flags_refuted.
Print Assumptions C54_no_center_file_refuted.

(** ** C53 over the rationals, with a truncation that cuts nothing and the plain product *)
Local Open Scope Qc_scope.
Definition qrt : ring_theory (0 : Qc) 1 Qcplus Qcmult Qcminus Qcopp eq := Qcrt.
Definition qnat (n : nat) : Qc := Q2Qc (inject_Z (Z.of_nat n)).
Definition qinvn (n : nat) : Qc := / qnat n.
Definition qcf (n : nat) : Qc := / qnat (fact n).
Lemma qnat_S n : qnat (S n) = 1 + qnat n.
Proof. unfold qnat. apply Qc_is_canon. cbn [this Qcplus Q2Qc]. rewrite !Qred_correct. rewrite Nat2Z.inj_succ. unfold Z.succ. rewrite inject_Z_plus. rewrite Qplus_comm. reflexivity. Qed.
Lemma qnat_ok n : rnat Qc 0 1 Qcplus n = qnat n.
Proof. induction n; [apply Qc_is_canon; reflexivity|]. cbn [rnat]. rewrite IHn, qnat_S. auto. Qed.
Lemma qnat_nz n : (1 <= n)%nat -> qnat n <> 0.
Proof.
  intros H E. apply (f_equal (fun x : Qc => this x)) in E. assert (E' : inject_Z (Z.of_nat n) == 0). { transitivity (this (qnat n)); [symmetry; apply Qred_correct|]. rewrite E. reflexivity. }
  unfold Qeq in E'. cbn in E'. lia.
Qed.
Definition qprod (n : nat) (p q : fmpo Qc) : res (fmpo Qc) := mpo_product Qc 0 Qcplus Qcmult p q (mpo_new Qc (length (mtens q))).
Definition qnorm (t : ten4 Qc) : Qc := e4 t 0 0 0 0.
Theorem C53_rational ds mtau H st max_order Dmax : (2 <= length ds)%nat -> oper_on Qc ds H -> holds4 Qc st H -> good_center Qc st (length H) ->
  exists nrm rho A, exp_mpo Qc 0 1 Qcplus Qcmult qnorm Qcinv (fun _ st => Ok st) qprod (fun st => Ok st) (fun _ _ => false) (fun _ => true) qinvn true st mtau (S max_order) Dmax = Ok (nrm, rho) /\ holds4 Qc rho A /\
    forall c c', In c (configs ds) -> In c' (configs ds) -> nrm <> 0 -> nrm * elem Qc 0 1 Qcplus Qcmult A c c' = exp_sum Qc 0 1 Qcplus Qcmult ds qcf mtau (elem Qc 0 1 Qcplus Qcmult H) (S max_order) c c'.
Proof.
  intros HN HH HS HG.
  assert (K : forall st : fmpo Qc, same_operator Qc 0 1 Qcplus Qcmult ds st st) by (intros s A H1 H2 H3; exists A; auto).
  assert (V : forall (n : nat) p q A B, holds4 Qc p A -> holds4 Qc q B -> oper_on Qc ds A -> oper_on Qc ds B ->
    exists st' A', qprod n p q = Ok st' /\ holds4 Qc st' A' /\ oper_on Qc ds A' /\ good_center Qc st' (length A') /\
    forall c c', In c (configs ds) -> In c' (configs ds) -> elem Qc 0 1 Qcplus Qcmult A' c c' = o_mul Qc 0 Qcplus Qcmult ds (elem Qc 0 1 Qcplus Qcmult A) (elem Qc 0 1 Qcplus Qcmult B) c c').
  { intros n p q A B H1 H2 H3 H4. assert (L : length (mtens q) = length ds) by (rewrite (proj1 H2), map_length; apply (oper_len Qc _ _ H4)).
    destruct (C57_product Qc 0 1 Qcplus Qcmult Qcminus Qcopp qrt p q (mpo_new Qc (length (mtens q))) A B ds) as (C & E1 & E2 & E3); auto; try (cbn; rewrite repeat_length; auto); try lia.
    eexists _, C. split; [exact E1|]. split; [split; [auto|cbn [mtypes]; rewrite repeat_length; symmetry; apply (oper_len Qc _ _ E2)]|]. split; auto. split; [left; auto|auto]. }
  assert (I1 : forall n, (1 <= n)%nat -> rnat Qc 0 1 Qcplus n * qinvn n = 1) by (intros n Hn; rewrite qnat_ok; apply Qcmult_inv_r, qnat_nz; auto).
  assert (I2 : forall n, rnat Qc 0 1 Qcplus (fact n) * qcf n = 1) by (intros n; rewrite qnat_ok; apply Qcmult_inv_r, qnat_nz, lt_O_fact).
  destruct (C53_taylor Qc 0 1 Qcplus Qcmult Qcminus Qcopp qrt qnorm Qcinv ds HN (fun _ st => Ok st) qprod (fun st => Ok st) (fun _ _ => false) (fun _ => true) qinvn qcf
    ltac:(intros; eexists; split; [reflexivity|apply K]) V ltac:(intros; eexists; split; [reflexivity|apply K]) I1 I2 Qcmult_inv_r mtau H true st (S max_order) Dmax HH HS HG) as (nrm & rho & k & E & HK & _ & HS2 & A & A1 & A2 & A3 & A4); auto.
  exists nrm, rho, A. split; auto. split; auto. intros c c' Hc Hc' NZ. destruct (A4 c c' Hc Hc') as [A5 _]. rewrite A5 by auto. f_equal. destruct HS2 as [->|(m & _ & _ & _ & X)]; [lia|discriminate].
Qed.
Print Assumptions C53_rational.
(** two sites, H = diag(1, 2) (x) 1 + 1 (x) X: orders 0, 1 and 2 *)
Definition q4 (a b c : nat) (l : list Z) : ten4 Qc := mkTen4 a b b c (fun x s s' y => Q2Qc (inject_Z (nth (((x * b + s) * b + s') * c + y)%nat l 0%Z))).
Definition exH : list (ten4 Qc) := [q4 1 2 2 [1; 1; 0; 0; 0; 0; 2; 1]%Z; q4 2 2 1 [1; 0; 0; 1; 0; 1; 1; 0]%Z].
Example C53_example : match exp_mpo Qc 0 1 Qcplus Qcmult qnorm Qcinv (fun _ st => Ok st) qprod (fun st => Ok st) (fun _ _ => false) (fun _ => true) qinvn true (mpo_of Qc (map Some exH)) (- (1)) 3 4 with
  | Ok (nrm, rho) => match mtens rho with
     | [Some a; Some b] => map (fun cc => this (nrm * elem Qc 0 1 Qcplus Qcmult [a; b] (fst cc) (snd cc))) [([0; 0], [0; 0]); ([0; 0], [0; 1]); ([1; 0], [1; 0]); ([1; 1], [1; 0])]%nat
     | _ => [] end
  | _ => [] end = [1 # 1; 0 # 1; 3 # 2; 1 # 1]%Q.
Proof. vm_compute. reflexivity. Qed.
