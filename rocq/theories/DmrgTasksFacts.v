(** Facts about DmrgTasks.v: every complete execution of the exchanges gives the values of the serial steps. *)
From Coq Require Import List Arith Lia Bool Ring Permutation.
From Verif Require Import Base FiniteMps FmpsSpec FmpsFacts EffHam EffHamSpec EffHamFacts Mpi MpiStar FarmSpec Farm FarmFacts Farm2 Farm2Facts Gather GatherFacts DmrgFarm DmrgFarmFacts DmrgTasks.
Import ListNotations.

Section DT.
Variables (R : Type) (r0 r1 : R) (radd rmul rsub : R -> R -> R) (ropp conj re : R -> R).
Variable Rth : ring_theory r0 r1 radd rmul rsub ropp (@eq R).
Hypothesis conj0 : conj r0 = r0.
Hypothesis conj1 : conj r1 = r1.
Hypothesis conj_add : forall x y, conj (radd x y) = radd (conj x) (conj y).
Hypothesis conj_mul : forall x y, conj (rmul x y) = rmul (conj x) (conj y).
Hypothesis re0 : re r0 = r0.
Hypothesis re_add : forall x y, re (radd x y) = radd (re x) (re y).
Add Ring RringT : Rth.
Infix "+r" := radd (at level 50, left associativity).
Infix "*r" := rmul (at level 40, left associativity).
Notation ten := (ten R). Notation mposite := (mposite R). Notation op2 := (op2 R). Notation t4 := (t4 R). Notation tens := (tens R).
Notation sumn := (sumn R r0 radd). Notation lsum := (EffHamSpec.lsum R r0 radd).
Notation bs_group := (bs_group R). Notation sb_group := (sb_group R).
Notation w_mul := (w_mul R r0 radd rmul). Notation w_left := (w_left R r0 radd rmul conj). Notation w_right := (w_right R r0 radd rmul conj).
Notation lin_comb := (lin_comb R radd). Notation dyn_result := (dyn_result R radd). Notation static_result := (static_result R radd). Notation group_result := (group_result R).
Notation place := (place R). Notation tadd := (tadd R radd). Notation tzero := (tzero R r0). Notation overlap := (overlap R r0 radd rmul conj re).
Notation grow_left := (grow_left R r0 radd rmul conj). Notation grow_right := (grow_right R r0 radd rmul conj).
Notation eff_mul := (eff_mul R r0 radd rmul). Notation comb_mul := (comb_mul R r0 radd rmul).
Notation dot4 := (dot4 R r0 radd rmul conj).

Lemma mapM_ext : forall A B (f g : A -> res B) l, (forall x, In x l -> f x = g x) -> mapM f l = mapM g l.
Proof. induction l as [|x l IH]; intros H; cbn [mapM]; auto. rewrite (H x) by (left; auto). rewrite IH by (intros; apply H; right; auto). auto. Qed.
Lemma mapM_map : forall A B D (f : B -> res D) (h : A -> B) l, mapM f (map h l) = mapM (fun x => f (h x)) l.
Proof. induction l as [|x l IH]; cbn [mapM map]; auto. rewrite IH. auto. Qed.

(** *** filling by number *)
Lemma place_from : forall n (f : nat -> tens) rs sl, length sl = n -> (forall m, In m rs -> fst m < n /\ snd m = f (fst m)) ->
  exists sl', for_each rs (fun r sl => vset sl (fst r) (snd r)) sl = Ok sl' /\ length sl' = n /\
    forall i, nth_error sl' i = if existsb (fun m => fst m =? i) rs then Some (f i) else nth_error sl i.
Proof.
  induction rs as [|m rs IH]; intros sl HL HM; cbn [for_each].
  - exists sl. auto.
  - destruct (HM m) as [A B]; [left; auto|]. rewrite vset_ok by lia. cbn [bind].
    destruct (IH (upd sl (fst m) (snd m))) as [sl' [E1 [E2 E3]]]; [rewrite upd_length; auto|intros; apply HM; right; auto|].
    exists sl'. split; [auto|]. split; [auto|]. intros i. rewrite E3. cbn [existsb]. destruct (existsb (fun m => fst m =? i) rs); [rewrite orb_true_r; auto|].
    rewrite orb_false_r, nth_error_upd, HL. destruct (Nat.eqb_spec (fst m) i) as [e|]; [|auto]. destruct (Nat.ltb_spec (fst m) n); [cbn; congruence|lia].
Qed.
Lemma place_once : forall n (f : nat -> tens) rs, once n f rs -> place n rs = Ok (map f (seq 0 n)).
Proof.
  intros n f rs H. unfold DmrgTasks.place. destruct (place_from n f rs (repeat NoT n)) as [sl [E1 [E2 E3]]].
  - apply repeat_length.
  - intros m I. apply (Permutation_in _ H) in I. apply in_map_iff in I. destruct I as [t [<- I]]. apply in_seq in I. cbn. split; [lia|auto].
  - rewrite E1. f_equal. apply nth_error_ext. intros i. rewrite E3. destruct (Nat.ltb_spec i n) as [L|L].
    + assert (existsb (fun m => fst m =? i) rs = true) as ->.
      { apply existsb_exists. exists (i, f i). split; [|apply Nat.eqb_refl]. apply Permutation_sym in H. apply (Permutation_in _ H). apply in_map_iff. exists i. split; [auto|]. apply in_seq. lia. }
      symmetry. apply map_nth_error. apply seq_nth; auto.
    + assert (existsb (fun m => fst m =? i) rs = false) as ->.
      { destruct (existsb (fun m => fst m =? i) rs) eqn:E; auto. apply existsb_exists in E. destruct E as [m [I J]]. apply Nat.eqb_eq in J.
        apply (Permutation_in _ H) in I. apply in_map_iff in I. destruct I as [t [<- I]]. apply in_seq in I. cbn in J. lia. }
      transitivity (@None tens); [|symmetry]; apply nth_error_None; rewrite ?repeat_length, ?map_length, ?seq_length; auto.
Qed.

(** *** one task *)
Lemma outers_group : forall l, outers R rmul (group_of R l) = Some (map (fun p => outer R rmul (fst p) (snd p)) l).
Proof. induction l as [|[a b] l IH]; cbn; auto. unfold group_of in IH. rewrite IH. auto. Qed.
Lemma combined_group : forall l, combined R radd rmul (group_of R l) = accumulate R radd (map (fun p => outer R rmul (fst p) (snd p)) l).
Proof. intros l. unfold combined. rewrite outers_group. auto. Qed.

Lemma dyn_comb : forall gl gr w1 w2 D0 p1 p2 D3 x rs, length gl = mrows w1 -> length gr = mcols w2 -> mcols w1 = mrows w2 ->
  once (mcols w1) (fun j => w_mul D0 p1 p2 D3 x (bs_group gl w1 j) (sb_group gr w2 j)) rs ->
  dyn_result (mcols w1) rs = comb_mul gl gr w1 w2 D0 p1 p2 D3 x.
Proof.
  intros gl gr w1 w2 D0 p1 p2 D3 x rs HL HR HM H. unfold DmrgTasks.dyn_result. rewrite (place_once _ _ _ H). cbn [bind]. unfold DmrgTasks.lin_comb, EffHam.comb_mul.
  rewrite HL, HR, HM, !Nat.eqb_refl. cbn [andb negb]. rewrite mapM_map. f_equal. apply mapM_ext. intros j _.
  unfold DmrgTasks.w_mul, block_site, site_block, DmrgTasks.bs_group, DmrgTasks.sb_group. rewrite !combined_group.
  destruct (accumulate R radd (map _ (left_terms R gl w1 j))); [|auto]. destruct (accumulate R radd (map _ (right_terms R gr w2 j))); auto.
Qed.
Lemma group_left : forall gl gr w1 w2 t rs, length gl = mrows w1 -> once (mcols w1) (fun j => w_left t (bs_group gl w1 j) (sb_group gr w2 j)) rs ->
  group_result (mcols w1) rs = grow_left gl t w1.
Proof.
  intros gl gr w1 w2 t rs HL H. unfold DmrgTasks.group_result. rewrite (place_once _ _ _ H). cbn [bind]. unfold EffHam.grow_left. rewrite HL, Nat.eqb_refl. cbn [negb].
  rewrite mapM_map. apply mapM_ext. intros j _. unfold DmrgTasks.w_left, block_site, DmrgTasks.bs_group. rewrite combined_group.
  destruct (accumulate R radd (map _ (left_terms R gl w1 j))); auto.
Qed.
Lemma group_right : forall gr w t rs, length gr = mcols w -> once (mrows w) (fun j => w_right t (sb_group gr w j)) rs ->
  group_result (mrows w) rs = grow_right gr t w.
Proof.
  intros gr w t rs HL H. unfold DmrgTasks.group_result. rewrite (place_once _ _ _ H). cbn [bind]. unfold EffHam.grow_right. rewrite HL, Nat.eqb_refl. cbn [negb].
  rewrite mapM_map. apply mapM_ext. intros j _. unfold DmrgTasks.w_right, site_block, DmrgTasks.sb_group. rewrite combined_group.
  destruct (accumulate R radd (map _ (right_terms R gr w j))); auto.
Qed.

(** *** sums of tensors *)
Definition is4 (v : tens) : Prop := match v with T4 _ => True | _ => False end.
Definition val (v : tens) : t4 := match v with T4 x => x | _ => fun _ _ _ _ => r0 end.
Lemma lsum_perm : forall A (l l' : list A) f, Permutation l l' -> lsum l f = lsum l' f.
Proof. intros A l l' f H. induction H as [|x l l' H IH|x y l|l l' l'' H1 IH1 H2 IH2]; [reflexivity| | |congruence]; unfold EffHamSpec.lsum in *; cbn [fold_right]; [rewrite IH; reflexivity|ring]. Qed.
Lemma lin_comb_ok : forall xs, xs <> [] -> Forall is4 xs -> exists y, lin_comb xs = Ok y /\ forall a b c d, y a b c d = lsum xs (fun v => val v a b c d).
Proof.
  intros xs HN HF. unfold DmrgTasks.lin_comb. assert (E : mapM (as4 R) xs = Ok (map val xs)).
  { clear HN. induction HF as [|v xs H HF IH]; cbn [mapM map]; auto. rewrite IH. destruct v; try contradiction. auto. }
  rewrite E. cbn [bind]. destruct (acc_ok R r0 r1 radd rmul rsub ropp Rth (map val xs)) as [y [E1 E2]]; [destruct xs; [congruence|discriminate]|].
  rewrite E1. exists y. split; [auto|]. intros. rewrite E2. apply lsum_map.
Qed.
Lemma sub_sum_ok : forall (m : nat -> tens) ts, (forall t, In t ts -> is4 (m t)) ->
  is4 (sub_sum tzero tadd m ts) /\ forall a b c d, val (sub_sum tzero tadd m ts) a b c d = lsum ts (fun t => val (m t) a b c d).
Proof.
  intros m [|t ts] H.
  - cbn. auto.
  - cbn [sub_sum]. assert (G : forall ts v, is4 v -> (forall t, In t ts -> is4 (m t)) -> is4 (fold_left tadd (map m ts) v) /\
      forall a b c d, val (fold_left tadd (map m ts) v) a b c d = val v a b c d +r lsum ts (fun t => val (m t) a b c d)).
    { clear - Rth. induction ts as [|t ts IH]; intros v Hv H; cbn [map fold_left].
      - split; [auto|]. intros. cbn. ring.
      - specialize (H t) as Ht. assert (is4 (m t)) by (apply Ht; left; auto). destruct (IH (tadd v (m t))) as [A B].
        + destruct v, (m t); try contradiction. exact I.
        + intros. apply H. right. auto.
        + split; [auto|]. intros. rewrite B. change (lsum (t :: ts) (fun t => val (m t) a b c d)) with (val (m t) a b c d +r lsum ts (fun t => val (m t) a b c d)).
          destruct v, (m t); try contradiction. cbn [DmrgTasks.tadd val]. unfold add4. ring. }
    destruct (G ts (m t)) as [A B]; [apply H; left; auto|intros; apply H; right; auto|]. split; [auto|]. intros. rewrite B. reflexivity.
Qed.
Lemma dot4_lsum : forall A (l : list A) (f : A -> t4) D0 p1 p2 D3 x, dot4 D0 p1 p2 D3 x (fun a b c d => lsum l (fun i => f i a b c d)) = lsum l (fun i => dot4 D0 p1 p2 D3 x (f i)).
Proof.
  intros A l f D0 p1 p2 D3 x. unfold EffHamSpec.dot4. induction l as [|i l IH].
  - cbn. rewrite sumn_lsum with (r1 := r1) (rmul := rmul) (rsub := rsub) (ropp := ropp) by auto. apply (lsum_0 R r0 r1 radd rmul rsub ropp Rth). intros a _.
    rewrite sumn_lsum with (r1 := r1) (rmul := rmul) (rsub := rsub) (ropp := ropp) by auto. apply (lsum_0 R r0 r1 radd rmul rsub ropp Rth). intros b _.
    rewrite sumn_lsum with (r1 := r1) (rmul := rmul) (rsub := rsub) (ropp := ropp) by auto. apply (lsum_0 R r0 r1 radd rmul rsub ropp Rth). intros c _.
    rewrite sumn_lsum with (r1 := r1) (rmul := rmul) (rsub := rsub) (ropp := ropp) by auto. apply (lsum_0 R r0 r1 radd rmul rsub ropp Rth). intros d _. ring.
  - change (lsum (i :: l) ?g) with (g i +r lsum l g). rewrite <- IH. clear IH.
    assert (S2 : forall n (f g : nat -> R), sumn n f +r sumn n g = sumn n (fun i => f i +r g i)).
    { clear - Rth. induction n as [|n IH]; intros f g; cbn [FmpsSpec.sumn]; [ring|]. rewrite <- IH. ring. }
    assert (SE : forall n (f g : nat -> R), (forall i, f i = g i) -> sumn n f = sumn n g).
    { clear. induction n as [|n IH]; intros f g H; cbn [FmpsSpec.sumn]; auto. rewrite H, (IH f g) by auto. auto. }
    rewrite S2. apply SE. intros a. rewrite S2. apply SE. intros b. rewrite S2. apply SE. intros c. rewrite S2. apply SE. intros d.
    change (lsum (i :: l) ?g) with (g i +r lsum l g). cbv beta. ring.
Qed.
Lemma re_lsum : forall A (l : list A) f, re (lsum l f) = lsum l (fun i => re (f i)).
Proof. induction l as [|i l IH]; intros f; [apply re0|]. change (lsum (i :: l) ?g) with (g i +r lsum l g). rewrite re_add, IH. auto. Qed.
Lemma dot4_ext : forall D0 p1 p2 D3 x y z, (forall a b c d, a < D0 -> d < D3 -> y a b c d = z a b c d) -> dot4 D0 p1 p2 D3 x y = dot4 D0 p1 p2 D3 x z.
Proof.
  intros D0 p1 p2 D3 x y z H. unfold EffHamSpec.dot4.
  assert (SE : forall n (f g : nat -> R), (forall i, i < n -> f i = g i) -> sumn n f = sumn n g).
  { clear. induction n as [|n IH]; intros f g H; cbn [FmpsSpec.sumn]; auto. rewrite H, (IH f g) by (auto; intros; apply H; lia). auto. }
  apply SE. intros a Ha. apply SE. intros b _. apply SE. intros c _. apply SE. intros d Hd. rewrite H; auto.
Qed.

(** *** at a cut of the chain *)
Section Cut.
Variables (tl tr : list ten) (wl : list mposite) (w1 w2 : mposite) (wr : list mposite) (D0 D3 : nat).
Hypothesis HC : cut R tl tr wl w1 w2 wr D0 D3.
Variables (gl gr : list op2).
Hypothesis HGl : left_ops R r0 radd rmul conj (triv_group R r1) tl wl = Ok gl.
Hypothesis HGr : right_ops R r0 r1 radd rmul conj tr wr = Ok gr.
Notation T := (mcols w1).
Notation bs := (bs_group gl w1). Notation sb := (sb_group gr w2).
Lemma cut_groups : length gl = mrows w1 /\ length gr = mcols w2 /\ mcols w1 = mrows w2 /\ cols_used R w1 /\ rows_used R w2.
Proof.
  destruct HC as [HL HR WL HM WR [LL LR] [UL UR] HP].
  apply Forall_app in UL. destruct UL as [UL U1]. inversion U1 as [|? ? U1' _]; subst. inversion UR as [|? ? U2 UR']; subst.
  destruct (left_ops_ok R r0 r1 radd rmul rsub ropp Rth conj conj0 conj1 conj_add conj_mul tl wl D0 (mrows w1) HL WL LL UL) as [gl' [A1 [A2 A3]]].
  destruct (right_ops_ok R r0 r1 radd rmul rsub ropp Rth conj conj0 conj1 conj_add conj_mul tr wr D3 (mcols w2) HR WR LR UR') as [gr' [B1 [B2 B3]]].
  assert (gl' = gl) by congruence. assert (gr' = gr) by congruence. subst. auto.
Qed.
Lemma task_is4 : forall p1 p2 x j, j < T -> is4 (w_mul D0 p1 p2 D3 x (bs j) (sb j)).
Proof.
  intros p1 p2 x j Hj. destruct cut_groups as [HL [HR [HM [U1 U2]]]]. unfold DmrgTasks.w_mul, block_site, site_block, DmrgTasks.bs_group, DmrgTasks.sb_group. rewrite !combined_group.
  destruct (acc_ok R r0 r1 radd rmul rsub ropp Rth (map (fun p => outer R rmul (fst p) (snd p)) (left_terms R gl w1 j))) as [y [E1 _]].
  { intros E. apply map_eq_nil in E. revert E. apply left_terms_some; auto. }
  destruct (acc_ok R r0 r1 radd rmul rsub ropp Rth (map (fun p => outer R rmul (fst p) (snd p)) (right_terms R gr w2 j))) as [z [E2 _]].
  { intros E. apply map_eq_nil in E. revert E. apply right_terms_some; [auto|]. apply U2. lia. }
  rewrite E1, E2. exact I.
Qed.
(** the serial result is the sum over the tasks *)
Lemma serial_sum : forall p1 p2 x, exists y, eff_mul gl gr w1 w2 D0 p1 p2 D3 x = Ok y /\
  forall a' s1' s2' b', a' < D0 -> b' < D3 -> y a' s1' s2' b' = lsum (seq 0 T) (fun j => val (w_mul D0 p1 p2 D3 x (bs j) (sb j)) a' s1' s2' b').
Proof.
  intros p1 p2 x. destruct (eff_ham_ok R r0 r1 radd rmul rsub ropp Rth conj conj0 conj1 conj_add conj_mul tl tr wl w1 w2 wr D0 D3 HC) as [gl' [gr' [A1 [A2 A3]]]].
  assert (gl' = gl) by congruence. assert (gr' = gr) by congruence. subst. destruct (A3 p1 p2 x) as [y [z [Y [Z E]]]]. exists y. split; [auto|].
  intros a' s1' s2' b' Ha Hb. destruct (E a' s1' s2' b' Ha Hb) as [_ <-]. destruct cut_groups as [HL [HR [HM _]]].
  rewrite <- (dyn_comb gl gr w1 w2 D0 p1 p2 D3 x (map (fun j => (j, w_mul D0 p1 p2 D3 x (bs j) (sb j))) (seq 0 T)) HL HR HM) in Z by apply Permutation_refl.
  unfold DmrgTasks.dyn_result in Z. rewrite (place_once _ (fun j => w_mul D0 p1 p2 D3 x (bs j) (sb j))) in Z by apply Permutation_refl. cbn [bind] in Z.
  destruct (lin_comb_ok (map (fun j => w_mul D0 p1 p2 D3 x (bs j) (sb j)) (seq 0 T))) as [z' [Z1 Z2]].
  - destruct HC as [_ _ _ _ _ _ _ HP]. destruct T; [lia|discriminate].
  - apply Forall_forall. intros v I. apply in_map_iff in I. destruct I as [j [<- I]]. apply in_seq in I. apply task_is4. lia.
  - assert (z' = z) by congruence. subst. rewrite Z2. apply lsum_map.
Qed.
Variable W : nat.
Hypothesis HW : 1 <= W.
Notation dyn x p1 p2 := (mul_prog tens W T bs sb (w_mul D0 p1 p2 D3 x) NoT).
Notation start_mul := (start (mul_init tens W T)).
Lemma dyn_run : forall p1 p2 x, completes (dyn x p1 p2) (S W) (mul_init tens W T) (3 * mul_size tens W T bs sb + W)
  (fun l => exists rs y z, l 0 = DDone rs /\ dyn_result T rs = Ok y /\ eff_mul gl gr w1 w2 D0 p1 p2 D3 x = Ok z /\ forall a b c d, a < D0 -> d < D3 -> y a b c d = z a b c d).
Proof.
  intros p1 p2 x n s H. destruct (mul_completes tens W T NoT HW bs sb (w_mul D0 p1 p2 D3 x) n s H) as [B [P F]]. split; [auto|]. split; [auto|]. intros Z.
  destruct (F Z) as [rs [E1 [E2 _]]]. destruct cut_groups as [HL [HR [HM _]]].
  destruct (eff_ham_ok R r0 r1 radd rmul rsub ropp Rth conj conj0 conj1 conj_add conj_mul tl tr wl w1 w2 wr D0 D3 HC) as [gl' [gr' [A1 [A2 A3]]]].
  assert (gl' = gl) by congruence. assert (gr' = gr) by congruence. subst. destruct (A3 p1 p2 x) as [z [y [Y [Z' E]]]].
  exists rs, y, z. split; [auto|]. split; [rewrite (dyn_comb gl gr w1 w2 D0 p1 p2 D3 x rs HL HR HM E2); auto|]. split; [auto|]. intros. apply E; auto.
Qed.
Lemma good_tables : forall p1 p2 x n s, steps _ _ (dyn x p1 p2) (S W) n start_mul s -> final _ _ (dyn x p1 p2) (S W) s -> tables_good tens W T bs sb (loc s).
Proof. intros p1 p2 x n s H Z. destruct (mul_completes tens W T NoT HW bs sb (w_mul D0 p1 p2 D3 x) n s H) as [_ [_ F]]. destruct (F Z) as [rs [_ [_ HT]]]. auto. Qed.
Lemma static_run : forall p1 p2 x x' n s, steps _ _ (dyn x p1 p2) (S W) n start_mul s -> final _ _ (dyn x p1 p2) (S W) s ->
  completes (sprog tens R r0 radd W) (S W) (static_init tens r0 W tadd (w_mul D0 p1 p2 D3 x') tzero (overlap D0 p1 p2 D3 x') (loc s)) (10 * W)
  (fun l => exists xs ov y z, l 0 = SDone xs ov /\ static_result xs = Ok y /\ eff_mul gl gr w1 w2 D0 p1 p2 D3 x' = Ok z /\
     (forall a b c d, a < D0 -> d < D3 -> y a b c d = z a b c d) /\ ov = re (dot4 D0 p1 p2 D3 x' z)).
Proof.
  intros p1 p2 x x' n s HS HF m s' H. pose proof (good_tables p1 p2 x n s HS HF) as [TP [TK _]].
  set (f := w_mul D0 p1 p2 D3 x'). set (sub := fun w => sub_sum tzero tadd (kept_mul tens f tzero (loc s) w) (table_of tens (loc s) w)).
  assert (M1 : forall x y, radd x y = radd y x) by (intros; ring). assert (M2 : forall x y z, radd x (radd y z) = radd (radd x y) z) by (intros; ring). assert (M3 : forall x, radd r0 x = x) by (intros; ring).
  destruct (static_completes tens R r0 radd M1 M2 M3 W sub (fun w => overlap D0 p1 p2 D3 x' (sub w)) m s' H) as [B [P F]].
  split; [exact B|]. split; [exact P|]. intros Z. destruct (F Z) as [xs [E1 [E2 E3]]]. clear B P F Z.
  assert (LT : forall w t, 1 <= w <= W -> In t (table_of tens (loc s) w) -> t < T).
  { intros w t Hw Ht. assert (In t (seq 0 T)) by (apply (Permutation_in _ TP), in_flat_map; exists w; split; [apply in_seq; lia|auto]). apply in_seq in H0. lia. }
  assert (KM : forall w t, 1 <= w <= W -> In t (table_of tens (loc s) w) -> kept_mul tens f tzero (loc s) w t = f (bs t) (sb t)).
  { intros w t Hw Ht. unfold kept_mul. rewrite (TK w t Hw Ht). auto. }
  assert (SW : forall w, 1 <= w <= W -> is4 (sub w) /\ forall a b c d, val (sub w) a b c d = lsum (table_of tens (loc s) w) (fun t => val (f (bs t) (sb t)) a b c d)).
  { intros w Hw. destruct (sub_sum_ok (kept_mul tens f tzero (loc s) w) (table_of tens (loc s) w)) as [A C].
    - intros t Ht. rewrite KM by auto. apply task_is4. apply (LT w t); auto.
    - split; [exact A|]. intros. unfold sub. rewrite C. apply lsum_ext. intros t Ht. rewrite KM by auto. auto. }
  assert (F4 : Forall is4 xs).
  { apply Forall_forall. intros v I. apply (Permutation_in _ E2) in I. apply in_map_iff in I. destruct I as [w [<- I]]. apply in_seq in I. apply SW. lia. }
  destruct (lin_comb_ok xs) as [y [Y1 Y2]]; auto.
  { intros ->. apply Permutation_nil in E2. destruct W; [lia|discriminate]. }
  destruct (serial_sum p1 p2 x') as [z [Z1 Z2]].
  assert (TOT : forall a b c d, lsum (seq 1 W) (fun w => val (sub w) a b c d) = lsum (seq 0 T) (fun j => val (f (bs j) (sb j)) a b c d)).
  { intros a b c d. rewrite <- (lsum_perm _ _ _ _ TP), (lsum_flat R r0 r1 radd rmul rsub ropp Rth). apply lsum_ext. intros w Hw. apply in_seq in Hw. apply SW. lia. }
  exists xs, (msum r0 radd (map (fun w => overlap D0 p1 p2 D3 x' (sub w)) (seq 1 W))), y, z. split; [exact E1|]. split; [exact Y1|]. split; [exact Z1|]. split.
  - intros a b c d Ha Hd. rewrite Y2, Z2 by auto. rewrite (lsum_perm _ _ _ _ E2), lsum_map. apply TOT.
  - transitivity (lsum (seq 1 W) (fun w => re (dot4 D0 p1 p2 D3 x' (val (sub w))))).
    + transitivity (lsum (seq 1 W) (fun w => overlap D0 p1 p2 D3 x' (sub w))).
      * clear. induction (seq 1 W) as [|w l IH]; cbn; auto. unfold msum in IH. rewrite IH. auto.
      * apply lsum_ext. intros w Hw. apply in_seq in Hw. destruct (SW w ltac:(lia)) as [I _]. destruct (sub w); try contradiction. auto.
    + rewrite <- re_lsum, <- dot4_lsum. f_equal. apply dot4_ext. intros a b c d Ha Hd. rewrite Z2 by auto. apply TOT.
Qed.
Lemma left_run : forall p1 p2 x n s t, steps _ _ (dyn x p1 p2) (S W) n start_mul s -> final _ _ (dyn x p1 p2) (S W) s ->
  completes (kprog tens T) (S W) (grow_init tens T (w_left t) NoT (loc s)) ((2 * T + 2) * (2 * T) + W * (2 * T))
  (fun l => exists rs, l 0 = KDone rs /\ group_result T rs = grow_left gl t w1).
Proof.
  intros p1 p2 x n s t HS HF m s' H. pose proof (good_tables p1 p2 x n s HS HF) as HG.
  destruct (grow_completes_x tens W T NoT HW bs sb (w_left t) (loc s) HG m s' H) as [B [P F]]. split; [auto|]. split; [auto|]. intros Z.
  destruct (F Z) as [rs [E1 [E2 _]]]. exists rs. split; [auto|]. apply (group_left gl gr w1 w2); [apply cut_groups|exact E2].
Qed.
Lemma right_run : forall p1 p2 x n s t, steps _ _ (dyn x p1 p2) (S W) n start_mul s -> final _ _ (dyn x p1 p2) (S W) s ->
  completes (kprog tens T) (S W) (grow_init tens T (fun _ => w_right t) NoT (loc s)) ((2 * T + 2) * (2 * T) + W * (2 * T))
  (fun l => exists rs, l 0 = KDone rs /\ group_result T rs = grow_right gr t w2).
Proof.
  intros p1 p2 x n s t HS HF m s' H. pose proof (good_tables p1 p2 x n s HS HF) as HG.
  destruct (grow_completes_x tens W T NoT HW bs sb (fun _ => w_right t) (loc s) HG m s' H) as [B [P F]]. split; [auto|]. split; [auto|]. intros Z.
  destruct (F Z) as [rs [E1 [E2 _]]]. exists rs. split; [auto|]. destruct cut_groups as [_ [HR [HM _]]]. rewrite HM. apply group_right; [auto|]. rewrite <- HM. exact E2.
Qed.
End Cut.
Lemma many_run : forall W gr t w, 1 <= W -> W < mrows w -> length gr = mcols w ->
  completes (many_prog tens W (mrows w) (sb_group gr w) (w_right t) NoT) (S W) (many_init tens W (mrows w)) (3 * init_size tens W (mrows w) (sb_group gr w) + W)
  (fun l => exists rs, l 0 = DDone rs /\ group_result (mrows w) rs = grow_right gr t w).
Proof.
  intros W gr t w HW HT HL n s H. destruct (many_completes tens W (mrows w) NoT HW (sb_group gr w) (w_right t) HT n s H) as [B [P F]]. split; [auto|]. split; [auto|]. intros Z.
  destruct (F Z) as [rs [E1 [E2 _]]]. exists rs. split; [auto|]. apply group_right; auto.
Qed.
Lemma few_run : forall W gr t w, mrows w <= W -> length gr = mcols w ->
  completes (few_prog tens (mrows w) (sb_group gr w) (w_right t) NoT) (S W) (few_init tens (mrows w) (sb_group gr w)) (3 * remi tens (mrows w) (fun t => Farm2Facts.gvals tens (sb_group gr w t)) 0 + W)
  (fun l => exists rs, l 0 = IDone rs /\ group_result (mrows w) rs = grow_right gr t w).
Proof.
  intros W gr t w HT HL n s H. destruct (few_completes_x tens W (mrows w) NoT (sb_group gr w) (w_right t) HT n s H) as [B [P F]]. split; [auto|]. split; [auto|]. intros Z.
  destruct (F Z) as [E1 _]. eexists. split; [exact E1|]. apply group_right; [auto|]. apply Permutation_refl.
Qed.
End DT.
