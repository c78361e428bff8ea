(** Small corollaries used by the property file of the MPO generator. *)
From Coq Require Import List Arith Lia Bool ZArith Permutation.
From Verif Require Import Base SparMat SparMatFacts CoefOp CoefOpFacts Compress Fsm Numeric Chain ChainProgress MpoGen MpoGenFacts MpoSpec
  MpoTen MpoTenSpec MpoTopSpec MpoRunSpec MpoRun MpoRunAll Release MpoMisc SparSpec SparHist MpoInst.
Import ListNotations.

Section Gen.
Variables (R : Type) (r0 r1 : R) (radd rmul rsub : R -> R -> R) (ropp : R -> R).
Variable Rth : ring_theory r0 r1 radd rmul rsub ropp (@eq R).
Variables (reqb : R -> R -> bool) (isneg small : R -> bool).
Hypothesis reqb_spec : forall x y, reqb x y = true <-> x = y.
Variables (Q : Type) (q0 : Q) (qsub : Q -> Q -> Q) (qeqb : Q -> Q -> bool) (dv : lop R -> Q).
Hypothesis qeqb_spec : forall a b, qeqb a b = true <-> a = b.
Hypothesis qsub_self : forall a, qsub a a = q0.
Hypothesis qsub_cancel : forall a b d, qsub a d = qsub b d -> a = b.
Hypothesis dv_neg : forall o, dv (lop_neg R ropp o) = dv o.
Variable (pd : nat -> nat).
Variable blk : nat -> nat -> nat -> Q -> Prop.
Variables (sites : list nat) (idops : list (lop R)).
Hypothesis Hid : good_ids R pd Q qsub dv sites idops.
Hypothesis Hbi : Forall (block_op R r0 Q dv blk) idops.

Notation run dbg calls := (run R r0 r1 ropp reqb isneg small dbg sites idops calls).
Notation Gen dbg compress g := (gen_mpo R r0 radd rmul Q qsub qeqb dv dbg compress q0 g).
Notation GenMatReprMPO dbg g := (gen_mat_mpo R r0 radd rmul dbg g).
Notation legal := (legal R r0 reqb small sites idops pd Q q0 qsub dv blk).
Notation counted := (acounted R r0 reqb small).
Notation amp ts s s' := (mpo_amp R r0 r1 radd rmul reqb Q ts s s').
Notation mat_amp ws s s' := (matmpo_amp R r0 r1 radd rmul reqb ws s s').
Notation sum_of_terms := (total R r0 r1 rmul reqb small sites radd).
Let RG := run_gen R r0 r1 radd rmul rsub ropp Rth reqb isneg small reqb_spec Q q0 qsub qeqb dv qeqb_spec qsub_self qsub_cancel dv_neg pd blk sites idops Hid Hbi.
Let RT := run_gen_total R r0 r1 radd rmul rsub ropp Rth reqb isneg small reqb_spec Q q0 qsub qeqb dv qeqb_spec qsub_self qsub_cancel dv_neg pd blk sites idops Hid Hbi.
Let RM := run_gen_mat R r0 r1 radd rmul rsub ropp Rth reqb isneg small reqb_spec Q q0 qsub qeqb dv qeqb_spec qsub_self qsub_cancel dv_neg pd blk sites idops Hid Hbi.

Lemma C01_lemma : forall calls ops, legal calls ops -> existsb counted calls = true ->
  no_twice R r0 ropp reqb isneg (filter counted calls) ->
  Forall (fun a => tail_neg R r0 reqb isneg a = false) (filter counted calls) ->
  forall dbg, exists g, run dbg calls = Ok g /\ forall dbg', exists ts, Gen dbg' false g = Ok ts /\
    forall s s', amp ts s s' = sum_of_terms calls ops s s'.
Proof.
  intros calls ops L E N T dbg. destruct (RT calls ops L E N T dbg) as [g [H1 H2]]. exists g. split; auto. intros dbg'.
  destruct (H2 dbg' false) as [ts [H3 [_ H4]]]. eauto.
Qed.

Lemma run_both : forall calls g, run true calls = Ok g -> run false calls = Ok g.
Proof.
  intros calls g. unfold MpoRunSpec.run. revert g. change (rle (for_each calls (exec_call R r0 ropp reqb isneg small true) (gen_new R r1 reqb sites idops))
    (for_each calls (exec_call R r0 ropp reqb isneg small false) (gen_new R r1 reqb sites idops))).
  apply rle_each. intros [c o i|c p i f ii|c o1 i1 o2 i2 f ii] x; [apply add_term_rle|apply add_term_inst_rle|apply add_term2_rle].
Qed.
Lemma run_gen_all : forall calls ops, legal calls ops -> existsb counted calls = true ->
  exists g, forall dbg, run dbg calls = Ok g.
Proof.
  intros calls ops L E. destruct (RG calls ops L E true) as [g [k [H _]]]. exists g. intros [|]; auto. apply run_both. auto.
Qed.

Lemma C02_lemma : forall calls ops, legal calls ops -> existsb counted calls = true ->
  forall dbg, exists g, run dbg calls = Ok g /\ forall dbg1 dbg2, exists ts ts0,
    Gen dbg1 true g = Ok ts /\ Gen dbg2 false g = Ok ts0 /\ forall s s', amp ts s s' = amp ts0 s s'.
Proof.
  intros calls ops L E dbg. destruct (run_gen_all calls ops L E) as [g H]. exists g. split; auto. intros dbg1 dbg2.
  destruct (RM calls ops L E dbg dbg1 dbg2) as [g' [ws [ts [ts0 [H1 [H2 [H3 [H4 [H5 [H6 [H7 H8]]]]]]]]]]].
  rewrite H in H1. injection H1 as <-. eauto.
Qed.
Lemma C03_lemma : forall calls ops, legal calls ops -> existsb counted calls = true ->
  exists g, (forall dbg, run dbg calls = Ok g) /\
    (forall compress, exists ts, forall dbg, Gen dbg compress g = Ok ts) /\
    (exists ws, forall dbg, GenMatReprMPO dbg g = Ok ws).
Proof.
  intros calls ops L E. destruct (run_gen_all calls ops L E) as [g H]. exists g. split; auto.
  destruct (RM calls ops L E true true true) as [g' [ws [ts [ts0 [H1 [H2 [H3 [H4 [H5 [H6 [H7 H8]]]]]]]]]]].
  rewrite H in H1. injection H1 as <-. split.
  - intros [|]; [exists ts|exists ts0]; intros [|]; auto; apply gen_mpo_rle; auto.
  - exists ws. intros [|]; auto. apply gen_mat_mpo_rle. auto.
Qed.
Lemma C04_lemma : forall calls ops, legal calls ops -> existsb counted calls = true -> forall dbg, exists g,
  run dbg calls = Ok g /\ forall dbg1 dbg2, exists ts ts0, Gen dbg1 true g = Ok ts /\ Gen dbg2 false g = Ok ts0 /\
    length ts = length sites /\ bonds R Q q0 [(q0, 1)] ts /\ bonds R Q q0 [(q0, 1)] ts0 /\
    Forall2 (fun t t0 => bdim Q (mt_l t) <= bdim Q (mt_l t0) /\ bdim Q (mt_r t) <= bdim Q (mt_r t0)) ts ts0.
Proof.
  intros calls ops L E dbg. destruct (run_gen_all calls ops L E) as [g H]. exists g. split; auto. intros dbg1 dbg2.
  destruct (RM calls ops L E dbg dbg1 dbg2) as [g' [ws [ts [ts0 [H1 [H2 [H3 [H4 [H5 [H6 [H7 H8]]]]]]]]]]].
  rewrite H in H1. injection H1 as <-. exists ts, ts0. split; auto. split; auto.
  destruct (RG calls ops L E dbg) as [g' [k [K1 [_ K2]]]]. rewrite H in K1. injection K1 as <-.
  destruct (K2 dbg1 true) as [t1 [A1 [[B1 C1] _]]]. rewrite H4 in A1. injection A1 as <-.
  destruct (K2 dbg2 false) as [t1 [A1 [[B2 C2] _]]]. rewrite H5 in A1. injection A1 as <-.
  split; [symmetry; eapply Forall2_len; eauto|]. auto.
Qed.
Lemma C08_lemma : forall a op, (exists c phys pidx inst ii, a = AInst R c phys pidx inst ii) ->
  means R sites idops a op -> counted a = true -> physical R r0 sites pd Q q0 qsub dv blk op ->
  forall dbg, exists g, run dbg [a] = Ok g /\ forall dbg' compress, exists ts, Gen dbg' compress g = Ok ts /\
    forall s s', amp ts s s' = (if tail_neg R r0 reqb isneg a then ropp (prod_elem R r0 r1 rmul sites (acoef R a) op s s')
                                else prod_elem R r0 r1 rmul sites (acoef R a) op s s').
Proof.
  intros a op _ M C P dbg.
  assert (L : legal [a] [op]) by (constructor; [split; auto|constructor]).
  assert (E : existsb counted [a] = true) by (cbn [existsb]; rewrite C; auto).
  destruct (RG [a] [op] L E dbg) as [g [k [K1 [K2 K3]]]]. exists g. split; auto. intros dbg' compress.
  destruct (K3 dbg' compress) as [ts [T1 [_ T2]]]. exists ts. split; auto. intros s s'. rewrite T2. unfold actual, counted_pairs.
  cbn [combine filter cnt fst]. unfold cnt. cbn [fst]. rewrite C. unfold sum_to. cbn [length seq fold_right nth_error].
  assert (K : k 0 = true).
  { destruct (k 0) eqn:K; auto. apply K2 in K; [|cbn [filter]; rewrite C; simpl; lia].
    destruct K as [? [? [? [_ [_ [[j' [? [? [J _]]]] _]]]]]]. lia. }
  rewrite K. pose proof (Radd_comm Rth) as RC. pose proof (Radd_0_l Rth) as R0. rewrite RC, R0. reflexivity.
Qed.
Lemma C09_lemma : forall dbg dbg' compress, sites <> [] -> exists g, run dbg [] = Ok g /\ Gen dbg' compress g = Ub.
Proof. intros. eexists. split; [reflexivity|]. apply gen_without_terms. auto. Qed.
Lemma C10_lemma : forall calls ops, legal calls ops -> existsb counted calls = true ->
  forall dbg, exists g, run dbg calls = Ok g /\ forall dbg1 dbg2 compress, exists ws ts,
    GenMatReprMPO dbg1 g = Ok ws /\ length ws = length sites /\ Gen dbg2 compress g = Ok ts /\
    (forall s s', mat_amp ws s s' = amp ts s s') /\
    Forall (fun t => bond_sorted Q (mt_l t) /\ bond_sorted Q (mt_r t)) ts.
Proof.
  intros calls ops L E dbg. destruct (C03_lemma calls ops L E) as [g [H [_ [ws HW]]]]. exists g. split; auto.
  intros dbg1 dbg2 compress.
  destruct (RM calls ops L E dbg dbg2 dbg2) as [g' [ws' [ts [ts0 [H1 [H2 [H3 [H4 [H5 [H6 [H7 H8]]]]]]]]]]].
  rewrite H in H1. injection H1 as <-. rewrite HW in H2. injection H2 as <-.
  destruct (RG calls ops L E dbg) as [g' [k [K1 [_ K2]]]]. rewrite H in K1. injection K1 as <-.
  destruct (K2 dbg2 compress) as [t1 [A1 [[B1 C1] _]]].
  exists ws, t1. split; auto. split; auto. split; auto. split.
  - intros s s'. rewrite H6. destruct compress; rewrite ?H4, ?H5 in A1; injection A1 as <-; auto.
  - clear - C1. induction C1; constructor; auto. destruct H as [? [? _]]. auto.
Qed.
Lemma C11_lemma : forall calls ops, legal calls ops -> existsb counted calls = true -> forall dbg, exists g,
  run dbg calls = Ok g /\ forall dbg' compress, exists ts, Gen dbg' compress g = Ok ts /\
    Forall2 (fun ix t => forall x a b y, ten_elem R r0 reqb (mt_w t) x a b y <> r0 ->
      exists ql qr d, nth_error (sectors Q (mt_l t)) x = Some ql /\ nth_error (sectors Q (mt_r t)) y = Some qr /\
        qr = qsub ql d /\ blk ix a b d) sites ts.
Proof.
  intros calls ops L E dbg. destruct (RG calls ops L E dbg) as [g [k [K1 [K2 K3]]]]. exists g. split; auto. intros dbg' compress.
  destruct (K3 dbg' compress) as [ts [T1 [[_ T2] _]]]. exists ts. split; auto. eapply Forall2_imp; [|exact T2].
  intros ix t [_ [_ [_ [_ H]]]]. exact H.
Qed.
End Gen.

Lemma C02_chain_lemma : forall (R : Type) (r0 r1 : R) radd rmul rsub ropp, ring_theory r0 r1 radd rmul rsub ropp (@eq R) ->
  forall cv, cv 0 = r1 -> forall ev dbg n ms ms' a b, Forall good ms -> chain a ms b -> length ms = n ->
  compress_chain true n ms = Ok ms' -> compress_chain dbg n ms = Ok ms' /\
  forall x y, x < a -> mprod R r0 r1 radd rmul cv ev 0 ms' x y = mprod R r0 r1 radd rmul cv ev 0 ms x y.
Proof.
  intros R r0 r1 radd rmul rsub ropp Rth cv Hcv ev dbg n ms ms' a b HG HC HL H. split.
  - destruct dbg; auto. apply compress_chain_rle. auto.
  - eapply pr_val. eapply compress_chain_preserves; eauto.
Qed.
Lemma C04_chain_lemma : forall dbg n ms ms' a b, Forall good ms -> chain a ms b -> length ms = n ->
  compress_chain true n ms = Ok ms' -> compress_chain dbg n ms = Ok ms' /\
  length ms' = n /\ chain a ms' b /\ Forall2 (fun m' m => rows m' <= rows m /\ cols m' <= cols m) ms' ms.
Proof.
  intros dbg n ms ms' a b HG HC HL H. split.
  - destruct dbg; auto. apply compress_chain_rle. auto.
  - destruct (compress_chain_preserves Z 0%Z 1%Z Z.add Z.mul Z.sub Z.opp Zth2 (fun _ => 1%Z) eq_refl (fun _ _ => 1%Z) _ _ _ _ _ HG HC HL H).
    split; [congruence|]. auto.
Qed.

Lemma gen_hypotheses_met_lemma :
  (forall x y, Z.eqb x y = true <-> x = y) /\ (forall a, (a - a = 0)%Z) /\ (forall a b d, (a - d = b - d)%Z -> a = b) /\
  (forall o, zdv (lop_neg Z Z.opp o) = zdv o) /\ good_ids Z zpd Z Z.sub zdv sites4 ids4 /\
  Forall (block_op Z 0%Z Z zdv zblk) ids4 /\ zlegal calls_ex ops_ex /\ existsb zcounted calls_ex = true /\
  no_twice Z 0%Z Z.opp Z.eqb zneg (filter zcounted calls_ex) /\
  Forall (fun a => tail_neg Z 0%Z Z.eqb zneg a = false) (filter zcounted calls_ex).
Proof.
  split; [apply Z.eqb_eq|]. split; [intros; lia|]. split; [intros; lia|].
  split; [apply zdv_neg|]. split; [apply ids_good|]. split; [apply ids_blk|]. split; [apply legal_ex|]. split; [reflexivity|].
  split; [apply no_twice_ex|apply no_tail_ex].
Qed.
Lemma C01_refuted_lemma : exists calls ops g ts s s', zlegal calls ops /\ existsb zcounted calls = true /\
  zrun false sites4 ids4 calls = Ok g /\ zgen false true 0%Z g = Ok ts /\ zamp ts s s' <> ztotal calls ops s s'.
Proof.
  destruct twice_wrong as [g [ts [H1 [H2 [H3 H4]]]]]. exists calls_twice, ops_twice, g, ts, (fun _ => 0), (fun _ => 0).
  split; [apply legal_twice|]. split; [reflexivity|]. split; auto. split; auto. rewrite H3, H4. discriminate.
Qed.
Lemma C08_refuted_lemma : exists calls ops g ts s s', zlegal calls ops /\ existsb zcounted calls = true /\
  no_twice Z 0%Z Z.opp Z.eqb zneg (filter zcounted calls) /\
  zrun true sites4 ids4 calls = Ok g /\ zgen true true 0%Z g = Ok ts /\ zamp ts s s' <> ztotal calls ops s s'.
Proof.
  destruct tail_wrong as [g [ts [H1 [H2 [H3 H4]]]]]. exists calls_tail, ops_tail, g, ts, (fun _ => 0), (fun _ => 0).
  split; [apply legal_tail|]. split; [reflexivity|]. split.
  { intros j j' a a' o o' i J A A' O. cbn in A. destruct j as [|[|j]]; cbn in A; try discriminate. injection A as <-. discriminate. }
  split; auto. split; auto. rewrite H3, H4. discriminate.
Qed.
Lemma C05_met_lemma : allowed_all nat 0 Nat.eqb (zeros nat 0 3 2)
  [SetElem nat 0 1 5; SetElem nat 2 0 7; SwapRows nat 0 2; RemoveRow nat 1; SetElem nat 0 0 9; TransCols nat [1;0]; RemoveCol nat 0].
Proof. cbn. repeat split; try lia. apply perm_swap. Qed.
Lemma C06_met_lemma : NoDup [7;3] /\ convert_all nat Nat.eqb [7;3] [5;3;5;8] = ([7;3;5;8], [2;1;2;3]).
Proof. split; [|reflexivity]. repeat constructor; simpl; intuition discriminate. Qed.
Lemma C07_met_lemma : Permutation [(sp, 2); (sz, 0); (smi, 3)] [(sz, 0); (smi, 3); (sp, 2)] /\
  NoDup (map snd [(sp, 2); (sz, 0); (smi, 3)]) /\
  Forall (fun p => nth_error (g_sites (gen_new Z 1%Z Z.eqb sites4 ids4)) (snd p) = Some (lo_ix (fst p))) [(sp, 2); (sz, 0); (smi, 3)].
Proof.
  split; [|split].
  - apply (Permutation_middle [(sz, 0); (smi, 3)] [] (sp, 2)).
  - repeat constructor; simpl; intuition discriminate.
  - repeat constructor.
Qed.

(** a chain of three matrices built by hand: 1 x 2, 2 x 2, 2 x 1; the second column is a multiple of the first *)
Definition mk (r c : nat) (h : list (op oprepr)) : opmat :=
  match exec oprepr kNullOp op_eq true h (mat_new r c) with Ok m => m | _ => mat_new r c end.
Lemma mk_wf : forall r c h, allowed_all oprepr kNullOp op_eq (zeros oprepr kNullOp r c) h -> wfo (mk r c h).
Proof.
  intros r c h H. destruct (exec_rel oprepr kNullOp op_eq true h _ _ (new_rel oprepr kNullOp op_eq r c) H) as [m [E1 [R1 _]]].
  unfold mk. rewrite E1. auto.
Qed.
Definition ch_ex : list opmat :=
  [mk 1 2 [SetElem _ 0 0 [(3, [0])]; SetElem _ 0 1 [(3, [0])]];
   mk 2 2 [SetElem _ 0 0 [(1, [0])]; SetElem _ 1 1 [(1, [0])]];
   mk 2 1 [SetElem _ 0 0 [(2, [4])]; SetElem _ 1 0 [(5, [6])]]].
Lemma ch_ex_good : Forall good ch_ex.
Proof.
  unfold ch_ex. repeat apply Forall_cons; try apply Forall_nil; (split; [apply mk_wf; cbn; lia|]); (split; [|vm_compute; lia]);
  intros x y Hx Hy; vm_compute in Hx, Hy; destruct x as [|[|x]]; destruct y as [|[|y]]; try lia; vm_compute; intuition lia.
Qed.
Lemma ch_ex_lemma : Forall good ch_ex /\ chain 1 ch_ex 1 /\ exists ms', compress_chain true 3 ch_ex = Ok ms' /\
  map (@rows oprepr) ms' = [1;1;1].
Proof.
  split; [apply ch_ex_good|]. split; [vm_compute; auto|]. 
  destruct (compress_chain true 3 ch_ex) as [ms'| |] eqn:E; [|vm_compute in E; discriminate E|vm_compute in E; discriminate E].
  exists ms'. split; auto. vm_compute in E. injection E as <-. reflexivity.
Qed.
