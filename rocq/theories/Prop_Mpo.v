(** Properties C01 - C11: the MPO generator. *)
From Coq Require Import List Arith Lia Bool ZArith Permutation.
From Verif Require Import Base SparMat SparMatFacts CoefOp CoefOpFacts Compress Fsm Numeric Chain ChainProgress MpoGen MpoGenFacts MpoSpec
  MpoTen MpoTenSpec MpoSort MpoTopSpec MpoRunSpec MpoRun MpoRunAll Release MpoMisc SparSpec SparHist SparEq MpoInst MpoPropFacts.
Import ListNotations.

Section Gen.
(* coefficients: any commutative ring with decidable equality *)
Variables (R : Type) (r0 r1 : R) (radd rmul rsub : R -> R -> R) (ropp : R -> R).
Variable Rth : ring_theory r0 r1 radd rmul rsub ropp (@eq R).
Variables (reqb : R -> R -> bool) (isneg small : R -> bool).
Hypothesis reqb_spec : forall x y, reqb x y = true <-> x = y.
(* quantum numbers: any group-like type; the divergence of an operator does not see a sign *)
Variables (Q : Type) (q0 : Q) (qsub : Q -> Q -> Q) (qeqb : Q -> Q -> bool) (dv : lop R -> Q).
Hypothesis qeqb_spec : forall a b, qeqb a b = true <-> a = b.
Hypothesis qsub_self : forall a, qsub a a = q0.
Hypothesis qsub_cancel : forall a b d, qsub a d = qsub b d -> a = b.
Hypothesis dv_neg : forall o, dv (lop_neg R ropp o) = dv o.
Variable (pd : nat -> nat).
Variable blk : nat -> nat -> nat -> Q -> Prop.
(* any chain of sites with its identity operators *)
Variables (sites : list nat) (idops : list (lop R)).
Hypothesis Hid : good_ids R pd Q qsub dv sites idops.
Hypothesis Hbi : Forall (block_op R r0 Q dv blk) idops.

Notation run dbg calls := (run R r0 r1 ropp reqb isneg small dbg sites idops calls).
Notation Gen dbg compress g := (gen_mpo R r0 radd rmul Q qsub qeqb dv dbg compress q0 g).
Notation GenMatReprMPO dbg g := (gen_mat_mpo R r0 radd rmul dbg g).
Notation legal := (legal R r0 reqb small sites idops pd Q q0 qsub dv blk).
Notation counted := (acounted R r0 reqb small).
Notation amp ts s s' := (mpo_amp R r0 r1 radd rmul reqb Q ts s s').
Notation mat_amp ws s s' := (matmpo_amp R r0 r1 radd rmul reqb ws s s').
Notation sum_of_terms := (total R r0 r1 rmul reqb small sites radd).

(** C01 *)
Theorem C01_uncompressed_mpo_is_sum_of_terms : forall calls ops, legal calls ops -> existsb counted calls = true ->
  no_twice R r0 ropp reqb isneg (filter counted calls) ->
  Forall (fun a => tail_neg R r0 reqb isneg a = false) (filter counted calls) ->
  forall dbg, exists g, run dbg calls = Ok g /\ forall dbg', exists ts, Gen dbg' false g = Ok ts /\
    forall s s', amp ts s s' = sum_of_terms calls ops s s'.
Proof. exact (C01_lemma R r0 r1 radd rmul rsub ropp Rth reqb isneg small reqb_spec Q q0 qsub qeqb dv qeqb_spec qsub_self qsub_cancel dv_neg pd blk sites idops Hid Hbi). Qed.

(** exact result for every legal list of calls: a one-site term that repeats all earlier one-site terms of its site is
    lost, an implicit tail string that starts with a negative number negates its term, everything else is there *)
Theorem C01_exact_sum : forall calls ops, legal calls ops -> existsb counted calls = true -> forall dbg, exists g kept,
  run dbg calls = Ok g /\
  (forall j, j < length (filter counted calls) ->
     kept j = false <-> a_repeated R r0 ropp reqb isneg (filter counted calls) j) /\
  forall dbg' compress, exists ts, Gen dbg' compress g = Ok ts /\ mpo_ok R r0 reqb Q q0 qsub blk sites ts /\
    forall s s', amp ts s s' =
      actual R r0 r1 radd rmul ropp reqb isneg sites (counted_pairs R r0 reqb small calls ops) kept s s'.
Proof. exact (run_gen R r0 r1 radd rmul rsub ropp Rth reqb isneg small reqb_spec Q q0 qsub qeqb dv qeqb_spec qsub_self qsub_cancel dv_neg pd blk sites idops Hid Hbi). Qed.

(** C02, on generated chains *)
Theorem C02_compression_preserves_generated_operator : forall calls ops, legal calls ops -> existsb counted calls = true ->
  forall dbg, exists g, run dbg calls = Ok g /\ forall dbg1 dbg2, exists ts ts0,
    Gen dbg1 true g = Ok ts /\ Gen dbg2 false g = Ok ts0 /\ forall s s', amp ts s s' = amp ts0 s s'.
Proof. exact (C02_lemma R r0 r1 radd rmul rsub ropp Rth reqb isneg small reqb_spec Q q0 qsub qeqb dv qeqb_spec qsub_self qsub_cancel dv_neg pd blk sites idops Hid Hbi). Qed.

(** C03 *)
Theorem C03_generation_never_aborts : forall calls ops, legal calls ops -> existsb counted calls = true ->
  exists g, (forall dbg, run dbg calls = Ok g) /\
    (forall compress, exists ts, forall dbg, Gen dbg compress g = Ok ts) /\
    (exists ws, forall dbg, GenMatReprMPO dbg g = Ok ws).
Proof. exact (C03_lemma R r0 r1 radd rmul rsub ropp Rth reqb isneg small reqb_spec Q q0 qsub qeqb dv qeqb_spec qsub_self qsub_cancel dv_neg pd blk sites idops Hid Hbi). Qed.

(** C04 *)
Theorem C04_bond_dimensions : forall calls ops, legal calls ops -> existsb counted calls = true -> forall dbg, exists g,
  run dbg calls = Ok g /\ forall dbg1 dbg2, exists ts ts0, Gen dbg1 true g = Ok ts /\ Gen dbg2 false g = Ok ts0 /\
    length ts = length sites /\
    (* neighbouring tensors share their bond, the outer bonds have dimension 1 *)
    bonds R Q q0 [(q0, 1)] ts /\ bonds R Q q0 [(q0, 1)] ts0 /\
    Forall2 (fun t t0 => bdim Q (mt_l t) <= bdim Q (mt_l t0) /\ bdim Q (mt_r t) <= bdim Q (mt_r t0)) ts ts0.
Proof. exact (C04_lemma R r0 r1 radd rmul rsub ropp Rth reqb isneg small reqb_spec Q q0 qsub qeqb dv qeqb_spec qsub_self qsub_cancel dv_neg pd blk sites idops Hid Hbi). Qed.

(** C08: string terms alone: a single call with insertion operators *)
Theorem C08_string_term : forall a op, (exists c phys pidx inst ii, a = AInst R c phys pidx inst ii) ->
  means R sites idops a op -> counted a = true -> physical R r0 sites pd Q q0 qsub dv blk op ->
  forall dbg, exists g, run dbg [a] = Ok g /\ forall dbg' compress, exists ts, Gen dbg' compress g = Ok ts /\
    forall s s', amp ts s s' = (if tail_neg R r0 reqb isneg a then ropp (prod_elem R r0 r1 rmul sites (acoef R a) op s s')
                                else prod_elem R r0 r1 rmul sites (acoef R a) op s s').
Proof. exact (C08_lemma R r0 r1 radd rmul rsub ropp Rth reqb isneg small reqb_spec Q q0 qsub qeqb dv qeqb_spec qsub_self qsub_cancel dv_neg pd blk sites idops Hid Hbi). Qed.

(** C09 *)
Theorem C09_ignored_coefficients_leave_no_trace : forall calls ops, legal calls ops -> forall dbg,
  run dbg calls = run dbg (filter counted calls).
Proof. exact (run_counted_only R r0 r1 ropp reqb isneg small reqb_spec Q q0 qsub dv pd blk sites idops Hid). Qed.
Theorem C09_generation_without_terms_is_undefined : forall dbg dbg' compress, sites <> [] ->
  exists g, run dbg [] = Ok g /\ Gen dbg' compress g = Ub.
Proof. exact (C09_lemma R r0 r1 radd rmul ropp reqb isneg small Q q0 qsub qeqb dv sites idops). Qed.

(** C10 *)
Theorem C10_both_representations_agree : forall calls ops, legal calls ops -> existsb counted calls = true ->
  forall dbg, exists g, run dbg calls = Ok g /\ forall dbg1 dbg2 compress, exists ws ts,
    GenMatReprMPO dbg1 g = Ok ws /\ length ws = length sites /\ Gen dbg2 compress g = Ok ts /\
    (forall s s', mat_amp ws s s' = amp ts s s') /\
    (* the quantum numbers of every bond come in contiguous, non-empty, pairwise different sectors *)
    Forall (fun t => bond_sorted Q (mt_l t) /\ bond_sorted Q (mt_r t)) ts.
Proof. exact (C10_lemma R r0 r1 radd rmul rsub ropp Rth reqb isneg small reqb_spec Q q0 qsub qeqb dv qeqb_spec qsub_self qsub_cancel dv_neg pd blk sites idops Hid Hbi). Qed.

(** C11 *)
Theorem C11_only_allowed_blocks : forall calls ops, legal calls ops -> existsb counted calls = true -> forall dbg, exists g,
  run dbg calls = Ok g /\ forall dbg' compress, exists ts, Gen dbg' compress g = Ok ts /\
    Forall2 (fun ix t => forall x a b y, ten_elem R r0 reqb (mt_w t) x a b y <> r0 ->
      exists ql qr d, nth_error (sectors Q (mt_l t)) x = Some ql /\ nth_error (sectors Q (mt_r t)) y = Some qr /\
        qr = qsub ql d /\ blk ix a b d) sites ts.
Proof. exact (C11_lemma R r0 r1 radd rmul rsub ropp Rth reqb isneg small reqb_spec Q q0 qsub qeqb dv qeqb_spec qsub_self qsub_cancel dv_neg pd blk sites idops Hid Hbi). Qed.
End Gen.
Print Assumptions C01_uncompressed_mpo_is_sum_of_terms.
Print Assumptions C01_exact_sum.
Print Assumptions C02_compression_preserves_generated_operator.
Print Assumptions C03_generation_never_aborts.
Print Assumptions C04_bond_dimensions.
Print Assumptions C08_string_term.
Print Assumptions C09_ignored_coefficients_leave_no_trace.
Print Assumptions C09_generation_without_terms_is_undefined.
Print Assumptions C10_both_representations_agree.
Print Assumptions C11_only_allowed_blocks.

(** the hypotheses are met: integers, a U(1) charge, four spin-1/2 sites and seven calls of all kinds *)
Example gen_hypotheses_met :
  (forall x y, Z.eqb x y = true <-> x = y) /\ (forall a, (a - a = 0)%Z) /\ (forall a b d, (a - d = b - d)%Z -> a = b) /\
  (forall o, zdv (lop_neg Z Z.opp o) = zdv o) /\ good_ids Z zpd Z Z.sub zdv sites4 ids4 /\
  Forall (block_op Z 0%Z Z zdv zblk) ids4 /\ zlegal calls_ex ops_ex /\ existsb zcounted calls_ex = true /\
  no_twice Z 0%Z Z.opp Z.eqb zneg (filter zcounted calls_ex) /\
  Forall (fun a => tail_neg Z 0%Z Z.eqb zneg a = false) (filter zcounted calls_ex).
Proof. exact gen_hypotheses_met_lemma. Qed.
(** and the amplitude there is not trivial *)

(** C01 does not hold without the condition on repeated one-site terms: 3 sz + 3 sz + sz sz gives 3 sz + sz sz *)
Theorem C01_repeated_onsite_term_refuted : exists calls ops g ts s s', zlegal calls ops /\ existsb zcounted calls = true /\
  zrun false sites4 ids4 calls = Ok g /\ zgen false true 0%Z g = Ok ts /\ zamp ts s s' <> ztotal calls ops s s'.
Proof. exact C01_refuted_lemma. Qed.
Print Assumptions C01_repeated_onsite_term_refuted.
(** C08 does not hold for an implicit tail string starting with a negative number *)
Theorem C08_tail_string_sign_refuted : exists calls ops g ts s s', zlegal calls ops /\ existsb zcounted calls = true /\
  no_twice Z 0%Z Z.opp Z.eqb zneg (filter zcounted calls) /\
  zrun true sites4 ids4 calls = Ok g /\ zgen true true 0%Z g = Ok ts /\ zamp ts s s' <> ztotal calls ops s s'.
Proof. exact C08_refuted_lemma. Qed.
Print Assumptions C08_tail_string_sign_refuted.

(** *** C02 - C04 on arbitrary chains of symbolic matrices, not only generated ones *)
Section Chains.
Variables (R : Type) (r0 r1 : R) (radd rmul rsub : R -> R -> R) (ropp : R -> R).
Variable Rth : ring_theory r0 r1 radd rmul rsub ropp (@eq R).
Variable cv : nat -> R.        (* value of each coefficient label *)
Hypothesis cv_id : cv 0 = r1.
Variable ev : nat -> nat -> R. (* value of each operator label on each site *)
Theorem C02_compression_preserves_product : forall dbg n ms ms' a b, Forall good ms -> chain a ms b -> length ms = n ->
  compress_chain true n ms = Ok ms' -> compress_chain dbg n ms = Ok ms' /\
  forall x y, x < a -> mprod R r0 r1 radd rmul cv ev 0 ms' x y = mprod R r0 r1 radd rmul cv ev 0 ms x y.
Proof. exact (C02_chain_lemma R r0 r1 radd rmul rsub ropp Rth cv cv_id ev). Qed.
End Chains.
Print Assumptions C02_compression_preserves_product.
Theorem C04_compression_never_grows_a_bond : forall dbg n ms ms' a b, Forall good ms -> chain a ms b -> length ms = n ->
  compress_chain true n ms = Ok ms' -> compress_chain dbg n ms = Ok ms' /\
  length ms' = n /\ chain a ms' b /\ Forall2 (fun m' m => rows m' <= rows m /\ cols m' <= cols m) ms' ms.
Proof. exact C04_chain_lemma. Qed.
Print Assumptions C04_compression_never_grows_a_bond.

Example C02_chain_met : Forall good ch_ex /\ chain 1 ch_ex 1 /\ exists ms', compress_chain true 3 ch_ex = Ok ms' /\
  map (@rows oprepr) ms' = [1;1;1].
Proof. exact ch_ex_lemma. Qed.

(** *** C05 *)
Theorem C05_sparse_matrix_is_dense_matrix : forall (E : Type) (nullE : E) (eqE : E -> E -> bool) dbg r c h,
  allowed_all E nullE eqE (zeros E nullE r c) h ->
  exists m, exec E nullE eqE dbg h (mat_new r c) = Ok m /\
    shows E nullE eqE dbg m (effects E nullE eqE (zeros E nullE r c) h).
Proof. exact history_refines. Qed.
Print Assumptions C05_sparse_matrix_is_dense_matrix.
(** two matrices compare equal exactly when they have the same shape and equal elements everywhere *)
Theorem C05_equality_compares_all_elements : forall (E : Type) (nullE : E) (eqE : E -> E -> bool) dbg r1 c1 h1 r2 c2 h2 m1 m2,
  allowed_all E nullE eqE (zeros E nullE r1 c1) h1 -> allowed_all E nullE eqE (zeros E nullE r2 c2) h2 ->
  exec E nullE eqE dbg h1 (mat_new r1 c1) = Ok m1 -> exec E nullE eqE dbg h2 (mat_new r2 c2) = Ok m2 ->
  exists b, mat_eq nullE eqE m1 m2 = Ok b /\
    (b = true <-> same_contents E eqE (effects E nullE eqE (zeros E nullE r1 c1) h1) (effects E nullE eqE (zeros E nullE r2 c2) h2)).
Proof. exact (fun E nullE eqE dbg r1 c1 h1 r2 c2 h2 m1 m2 => exec_eq E nullE eqE dbg r1 c1 h1 r2 c2 h2 m1 m2 (history_refines E nullE eqE)). Qed.
Print Assumptions C05_equality_compares_all_elements.
Example C05_met : allowed_all nat 0 Nat.eqb (zeros nat 0 3 2)
  [SetElem nat 0 1 5; SetElem nat 2 0 7; SwapRows nat 0 2; RemoveRow nat 1; SetElem nat 0 0 9; TransCols nat [1;0]; RemoveCol nat 0].
Proof. exact C05_met_lemma. Qed.

(** *** C06 *)
Theorem C06_labels : forall (A : Type) (eqb : A -> A -> bool), (forall x y, eqb x y = true <-> x = y) ->
  forall hub xs, NoDup hub -> let (h, ls) := convert_all A eqb hub xs in
  length ls = length xs /\ (exists e, h = hub ++ e) /\
  (forall i x l, nth_error xs i = Some x -> nth_error ls i = Some l -> nth_error h l = Some x) /\
  (forall i j x y k l, nth_error xs i = Some x -> nth_error xs j = Some y -> nth_error ls i = Some k -> nth_error ls j = Some l ->
     (k = l <-> x = y)).
Proof. exact convert_history. Qed.
Print Assumptions C06_labels.
(** labels already given out never change: what follows only appends *)
Theorem C06_labels_are_stable : forall (A : Type) (eqb : A -> A -> bool) xs ys hub, convert_all A eqb hub (xs ++ ys) =
  (fst (convert_all A eqb (fst (convert_all A eqb hub xs)) ys),
   snd (convert_all A eqb hub xs) ++ snd (convert_all A eqb (fst (convert_all A eqb hub xs)) ys)).
Proof. exact convert_all_app. Qed.
Print Assumptions C06_labels_are_stable.
Example C06_met : NoDup [7;3] /\ convert_all nat Nat.eqb [7;3] [5;3;5;8] = ([7;3;5;8], [2;1;2;3]).
Proof. exact C06_met_lemma. Qed.

(** *** C07 *)
Theorem C07_argument_order_is_irrelevant : forall (R : Type) (r0 : R) ropp reqb isneg small dbg (g : gen R) c (P P' : list (lop R * nat)),
  Permutation P P' -> NoDup (map snd P) ->
  Forall (fun p => nth_error (g_sites g) (snd p) = Some (lo_ix (fst p))) P ->
  add_term R r0 ropp reqb isneg small dbg g c (map fst P) (map snd P) =
  add_term R r0 ropp reqb isneg small dbg g c (map fst P') (map snd P').
Proof. exact add_term_perm. Qed.
Print Assumptions C07_argument_order_is_irrelevant.
Example C07_met : Permutation [(sp, 2); (sz, 0); (smi, 3)] [(sz, 0); (smi, 3); (sp, 2)] /\
  NoDup (map snd [(sp, 2); (sz, 0); (smi, 3)]) /\
  Forall (fun p => nth_error (g_sites (gen_new Z 1%Z Z.eqb sites4 ids4)) (snd p) = Some (lo_ix (fst p))) [(sp, 2); (sz, 0); (smi, 3)].
Proof. exact C07_met_lemma. Qed.
