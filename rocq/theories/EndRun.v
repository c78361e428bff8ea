(** Runs with the MPO of the generator: in terms of the sum of the terms that were added. *)
From Coq Require Import List Arith Lia Bool Ring Reals Lra QArith Qreals.
From Verif Require Import Base MpoGen MpoSpec MpoTen MpoTenSpec MpoTopSpec MpoRunSpec MpoGenFacts MpoTop MpoRunAll FiniteMps FmpsSpec EffHam EffHamSpec EffHamFacts ChainSpec Legs VmpsSpec Cx GVec CorrSpec
  DmrgStep ChainUpdate DmrgVarSpec ConserveSpec EigenSpec EndSpec MpoUse MpoUseFacts.
Import ListNotations.
Local Open Scope nat_scope.

Section End.
Variables (reqb : cx -> cx -> bool) (isneg small : cx -> bool).
Hypothesis reqb_spec : forall x y, reqb x y = true <-> x = y.
Variables (Q : Type) (q0 : Q) (qsub : Q -> Q -> Q) (qeqb : Q -> Q -> bool) (dv : lop cx -> Q).
Hypothesis qeqb_spec : forall a b, qeqb a b = true <-> a = b.
Hypothesis qsub_self : forall a, qsub a a = q0.
Hypothesis qsub_cancel : forall a b d, qsub a d = qsub b d -> a = b.
Hypothesis dv_neg : forall o, dv (lop_neg cx copp o) = dv o.
Variable (pd : nat -> nat).
Variable blk : nat -> nat -> nat -> Q -> Prop.
Variables (phys : list nat) (idops : list (lop cx)).
Hypothesis Hid : good_ids cx pd Q qsub dv phys idops.
Hypothesis Hbi : Forall (block_op cx c0 Q dv blk) idops.
Variables (calls : list (acall cx)) (ops : list (nat -> lop cx)).
Notation counted := (acounted cx c0 reqb small).
Hypothesis HL : legal cx c0 reqb small phys idops pd Q q0 qsub dv blk calls ops.
Hypothesis HE : existsb counted calls = true.
Hypothesis HT : no_twice cx c0 copp reqb isneg (filter counted calls).
Hypothesis HS : Forall (fun a => tail_neg cx c0 reqb isneg a = false) (filter counted calls).
Notation N := (length phys). Notation ds := (map pd phys). Notation H := (sum_of_terms reqb small phys calls ops).
Notation run dbg := (run cx c0 c1 copp reqb isneg small dbg phys idops calls).
Notation Gen dbg compress g := (gen_mpo cx c0 cadd cmul Q qsub qeqb dv dbg compress q0 g).
Notation GenMat dbg g := (gen_mat_mpo cx c0 cadd cmul dbg g).
Notation gws mt := (mpo_g cx c0 reqb Q pd phys mt). Notation dws mt := (mat_g cx c0 mt).
Notation wmat := (mpo_mat cx c0 c1 cadd cmul).

(** what the algorithms need of the MPO *)
Record usable (ws : nat -> cg) : Prop := {
  us_fit : wfit cx 1 (map csite_of (sites N ws)) 1;
  us_legs : forall i, i < N -> exists m n, gd cx (ws i) = [m; nth i ds 0; nth i ds 0; n];
  us_op : forall c c', In c (configs ds) -> In c' (configs ds) -> wmat (map csite_of (sites N ws)) c c' 0 0 = H c c' }.
Record usable_mat (ws : nat -> mposite cx) : Prop := {
  um_fit : wfit cx 1 (sites N ws) 1; um_cols : forall i, cols_used cx (ws i); um_rows : forall i, rows_used cx (ws i); um_pos : forall i, 1 <= mcols (ws i);
  um_op : forall c c', In c (configs ds) -> In c' (configs ds) -> wmat (sites N ws) c c' 0 0 = H c c' }.

Let RT := run_gen_total cx c0 c1 cadd cmul csub copp cx_ring reqb isneg small reqb_spec Q q0 qsub qeqb dv qeqb_spec qsub_self qsub_cancel dv_neg pd blk phys idops Hid Hbi calls ops HL HE HT HS.
Let RM := run_gen_mat cx c0 c1 cadd cmul csub copp cx_ring reqb isneg small reqb_spec Q q0 qsub qeqb dv qeqb_spec qsub_self qsub_cancel dv_neg pd blk phys idops Hid Hbi calls ops HL HE.
Let RU := run_gen_used cx c0 c1 cadd cmul csub copp cx_ring reqb isneg small reqb_spec Q q0 qsub dv qsub_cancel dv_neg pd blk phys idops Hid Hbi calls ops HL HE.

Theorem gen_usable : forall dbg, exists g, run dbg = Ok g /\ forall dbg' compress, exists mt, Gen dbg' compress g = Ok mt /\ usable (gws mt).
Proof.
  intros dbg. destruct (RT dbg) as [g [E1 E2]]. exists g. split; [exact E1|]. intros dbg' compress. destruct (E2 dbg' compress) as [mt [M1 [[M2 M3] M4]]]. exists mt. split; [exact M1|].
  assert (LM : length mt = N) by (symmetry; eapply Forall2_len; eauto).
  constructor.
  - rewrite (sites_g cx c0 reqb Q pd phys mt LM). apply (fit_g cx c0 reqb Q pd q0 mt phys [(q0, 1)] LM M2).
  - intros i Hi. unfold mpo_g. destruct (nth_error phys i) as [ix|] eqn:Ei; [|apply nth_error_None in Ei; lia].
    destruct (nth_error mt i) as [t|] eqn:Et; [|apply nth_error_None in Et; lia]. cbn [gd ten_g]. exists (bdim Q (mt_l t)), (bdim Q (mt_r t)).
    assert (X : nth i ds 0 = pd ix) by (apply nth_error_nth; rewrite nth_error_map, Ei; reflexivity). rewrite X. reflexivity.
  - intros c c' Ic Ic'. apply EffHamFacts.configs_len in Ic. apply EffHamFacts.configs_len in Ic'. rewrite map_length in Ic, Ic'.
    rewrite (sites_g cx c0 reqb Q pd phys mt LM).
    rewrite (amp_g cx c0 c1 cadd cmul csub copp cx_ring reqb Q pd mt phys c c' 0 (fun i => nth i c 0) (fun i => nth i c' 0) 0) by (auto; congruence). apply M4.
Qed.
Theorem mat_usable : forall dbg dbg', exists g mt, run dbg = Ok g /\ GenMat dbg' g = Ok mt /\ length mt = N /\ usable_mat (dws mt).
Proof.
  intros dbg dbg'. destruct (RM dbg dbg' false) as [g [mt [ts [_ [E1 [E2 [E3 [E4 [_ [E5 _]]]]]]]]]]. exists g, mt. split; [exact E1|]. split; [exact E2|]. split; [exact E3|].
  destruct (RU dbg g dbg' mt E1 E2) as [U1 U2].
  assert (UX : forall i, (exists w, In w mt /\ dws mt i = mat_w cx c0 w) \/ dws mt i = mkMpo cx 1 1 (fun _ _ => Some (fun _ _ => c0))).
  { intros i. unfold mat_g. destruct (nth_error mt i) as [w|] eqn:E; [left; exists w; split; [eapply nth_error_In; eauto|reflexivity]|right; reflexivity]. }
  rewrite Forall_forall in U1. constructor.
  - rewrite <- E3, sites_mat. exact U2.
  - intros i. destruct (UX i) as [[w [I E]]|E]; rewrite E; [apply (U1 w I)|]. intros j Hj. exists 0. cbn. split; [lia|discriminate].
  - intros i. destruct (UX i) as [[w [I E]]|E]; rewrite E; [apply (U1 w I)|]. intros j Hj. exists 0. cbn. split; [lia|discriminate].
  - intros i. destruct (UX i) as [[w [I E]]|E]; rewrite E; [apply (U1 w I)|]. cbn. lia.
  - intros c c' Ic Ic'. apply EffHamFacts.configs_len in Ic. apply EffHamFacts.configs_len in Ic'. rewrite map_length in Ic, Ic'. rewrite <- E3, sites_mat.
    rewrite (amp_mat cx c0 c1 cadd cmul csub copp cx_ring reqb reqb_spec pd mt c c' 0 (fun i => nth i c 0) (fun i => nth i c' 0) 0) by (auto; try congruence; apply Forall_forall; intros w I; apply (U1 w I)).
    fold (matmpo_amp cx c0 c1 cadd cmul reqb mt (fun i => nth i c 0) (fun i => nth i c' 0)). rewrite E5.
    destruct (RT dbg) as [g1 [X1 X2]]. rewrite E1 in X1. injection X1 as <-. destruct (X2 dbg' true) as [mt' [Y1 [_ Y2]]]. rewrite E4 in Y1. injection Y1 as <-. apply Y2.
Qed.

Section Ten.
Variable ws : nat -> cg.
Hypothesis U : usable ws.
Lemma seq_F2 : forall A B (P : A -> B -> Prop) (f : nat -> A) (g : nat -> B) n b, (forall i, b <= i < b + n -> P (f i) (g i)) -> Forall2 P (map f (seq b n)) (map g (seq b n)).
Proof. intros A B P f g. induction n; intros b E; cbn; constructor; [apply E; lia|]. apply IHn. intros. apply E. lia. Qed.
Lemma chain_of : forall ts, mps_on N ds ts <-> chain N ws ds ts.
Proof.
  intros ts. split.
  - intros [A [B C]]. split; [|exact C]. split; [|split; [exact B|apply U]]. apply seq_F2. intros i Hi. destruct (A i ltac:(lia)) as [a [p [b E]]]. destruct (us_legs ws U i ltac:(lia)) as [m [n E']].
    exists a, p, b, m, n. split; [exact E|]. rewrite E'. assert (X : nth i ds 0 = p); [|rewrite X; reflexivity].
    rewrite <- C. unfold sites. rewrite !map_map. assert (Y : nth i (map (fun x => d1 (cten_of (ts x))) (seq 0 N)) 0 = d1 (cten_of (ts i))).
    { apply nth_error_nth. rewrite nth_error_map. rewrite (nth_error_nth' _ 0) by (rewrite seq_length; lia). rewrite List.seq_nth by lia. reflexivity. }
    rewrite Y. unfold ten_of. rewrite E. reflexivity.
  - intros [[A [B _]] C]. split; [|split; assumption]. intros i Hi.
    assert (X : forall l l', Forall2 (same_site cx) l l' -> forall t, In t l -> exists a p b, gd cx t = [a; p; b]).
    { intros l l' F. induction F as [|t w l l' [a [p [b [m [n [E _]]]]]] F IH]; intros t0 I; [destruct I|]. destruct I as [<-|I]; eauto. }
    apply (X _ _ A). unfold sites. apply in_map. apply in_seq. lia.
Qed.
Lemma herm_of : hermitian ds H -> hermitian_chain N ws ds.
Proof. intros HH c c' Ic Ic'. rewrite !(us_op ws U) by auto. apply HH; auto. Qed.
Lemma norm_of : forall ts, mps_on N ds ts -> sq_norm N ts = norm_sq ds (amp N ts).
Proof. intros ts [_ [_ C]]. unfold sq_norm, norm2, norm_sq. rewrite C. reflexivity. Qed.
Lemma energy_of_terms : forall ts, mps_on N ds ts -> energy_val N ws ts = expectation ds H (amp N ts).
Proof.
  intros ts [_ [_ C]]. unfold energy_val, EffHamSpec.energy, expectation. rewrite C. apply lsum_ext. intros c' I'. apply lsum_ext. intros c I. rewrite (us_op ws U) by auto. reflexivity.
Qed.
Lemma ratio_of : forall ts, mps_on N ds ts -> energy_ratio N ws ts = mean ds H (amp N ts).
Proof. intros ts M. unfold energy_ratio, mean. rewrite energy_of_terms, norm_of by auto. reflexivity. Qed.
Lemma has_of : forall ts e, mps_on N ds ts -> has_energy N ws ts e -> state_of_energy ds H (amp N ts) e.
Proof. intros ts e M [A B]. split; [rewrite <- norm_of; auto|rewrite <- energy_of_terms; auto]. Qed.
Lemma eigen_of : forall psi E, eigenvector ds H psi E <-> eigenstate N ws ds psi E.
Proof.
  intros psi E. split; intros X c' I'; rewrite <- (X c' I'); apply lsum_ext; intros c I; rewrite (us_op ws U) by auto; reflexivity.
Qed.
End Ten.
Section Mat.
Variable ws : nat -> mposite cx.
Hypothesis U : usable_mat ws.
Lemma proper_of : hermitian ds H -> proper_mpo N ws ds.
Proof.
  intros HH. constructor; [apply U|apply U|apply U|intros i _; apply (um_pos ws U i)|].
  intros c c' Ic Ic'. rewrite !(um_op ws U) by auto. apply HH; auto.
Qed.
Lemma d_norm_of : forall ts, on_sites N ds ts -> cnorm2 (sites N ts) = norm_sq ds (damp N ts).
Proof. intros ts [_ C]. unfold norm2, norm_sq. rewrite C. reflexivity. Qed.
Lemma d_energy_of : forall ts, on_sites N ds ts -> cenergy (sites N ts) (sites N ws) = expectation ds H (damp N ts).
Proof.
  intros ts [_ C]. unfold EffHamSpec.energy, expectation. rewrite C. apply lsum_ext. intros c' I'. apply lsum_ext. intros c I. rewrite (um_op ws U) by auto. reflexivity.
Qed.
Lemma d_ratio_of : forall ts, on_sites N ds ts -> expect N ws ts = mean ds H (damp N ts).
Proof. intros ts M. unfold expect, mean. rewrite d_energy_of, d_norm_of by auto. reflexivity. Qed.
Lemma d_has_of : forall ts e, on_sites N ds ts -> DmrgVarSpec.energy_of N ws ts e -> state_of_energy ds H (damp N ts) e.
Proof. intros ts e M [A B]. split; [rewrite <- d_norm_of; auto|rewrite <- d_energy_of; auto]. Qed.
End Mat.
Lemma bound_of : forall psi e lam, state_of_energy ds H psi e -> at_least ds H lam -> (lam <= e)%R.
Proof. intros psi e lam [A B] L. specialize (L psi). rewrite A, B in L. cbn in L. lra. Qed.
End End.

(** real coefficients and Hermitian operators on every site: the sum is Hermitian *)
Lemma herm_terms : forall reqb small pd phys calls ops, Forall2 (fun a op => cconj (acoef cx a) = acoef cx a /\ forall i, i < length phys -> forall s s', elem c0 (op i) s s' = cconj (elem c0 (op i) s' s)) calls ops ->
  hermitian (map pd phys) (sum_of_terms reqb small phys calls ops).
Proof.
  intros reqb small pd phys calls ops F c c' _ _. unfold sum_of_terms. induction F as [|a op calls ops [A B] F IH]; cbn [MpoRunSpec.total].
  - symmetry. apply cconj0.
  - rewrite cconj_add, <- IH. f_equal. destruct (acounted cx c0 reqb small a); [|symmetry; apply cconj0]. unfold prod_elem. rewrite cconj_mul, A. f_equal.
    assert (G : forall n b, (forall i, b <= i < b + n -> i < length phys) ->
      rprod cx c1 cmul n b (fun i => elem c0 (op i) (nth i c 0) (nth i c' 0)) = cconj (rprod cx c1 cmul n b (fun i => elem c0 (op i) (nth i c' 0) (nth i c 0)))).
    { induction n as [|n IHn]; intros b Hb; cbn [rprod].
      - unfold cconj, c1. cbn. f_equal; ring.
      - rewrite cconj_mul, <- (B b) by (apply Hb; lia). f_equal. apply IHn. intros i Hi. apply Hb. lia. }
    apply G. lia.
Qed.
