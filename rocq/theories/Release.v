(** Release builds: what a debug build computes without aborting, a build with NDEBUG computes as well. *)
From Coq Require Import List Arith Lia Bool.
From Verif Require Import Base SparMat CoefOp Fsm MpoGen MpoTen.
Import ListNotations.

Definition rle {A} (a b : res A) : Prop := forall y, a = Ok y -> b = Ok y.
Lemma rle_refl : forall A (a : res A), rle a a.
Proof. intros A a y H. exact H. Qed.
Lemma rle_bind : forall A B (a b : res A) (f g : A -> res B), rle a b -> (forall x, rle (f x) (g x)) -> rle (bind a f) (bind b g).
Proof.
  intros A B a b f g H1 H2 y. unfold rle in *. destruct a as [x| |]; try discriminate. rewrite (H1 x eq_refl). apply H2.
Qed.
Lemma rle_assert : forall b, rle (assert_ true b) (assert_ false b).
Proof. intros [|] y; simpl; auto. discriminate. Qed.
Lemma rle_for : forall S n s (b b' : nat -> S -> res S) st, (forall i x, rle (b i x) (b' i x)) -> rle (for_loop s n b st) (for_loop s n b' st).
Proof. induction n; intros s b b' st H; simpl; [apply rle_refl|]. apply rle_bind; auto. Qed.
Lemma rle_each : forall X S (l : list X) (b b' : X -> S -> res S) st, (forall i x, rle (b i x) (b' i x)) -> rle (for_each l b st) (for_each l b' st).
Proof. induction l; intros b b' st H; simpl; [apply rle_refl|]. apply rle_bind; auto. Qed.

Lemma rle_unit : forall a : res unit, rle a (Ok tt).
Proof. intros a [] _. reflexivity. Qed.

Ltac rle :=
  repeat (intros; first
   [ apply rle_refl
   | apply rle_assert
   | apply rle_bind
   | apply rle_for
   | apply rle_each
   | match goal with |- rle (match ?x with _ => _ end) _ => destruct x end
   | assumption ]).

Section Mat.
Variables (E : Type) (nullE : E) (eqE : E -> E -> bool).
Lemma get_row_rle : forall m r, rle (get_row nullE true m r) (@get_row E nullE false m r).
Proof. unfold get_row. rle. Qed.
Lemma get_col_rle : forall m r, rle (get_col nullE true m r) (@get_col E nullE false m r).
Proof. unfold get_col. rle. Qed.
Lemma remove_row_rle : forall m r, rle (remove_row true m r) (@remove_row E false m r).
Proof. unfold remove_row. rle. Qed.
Lemma remove_col_rle : forall m r, rle (remove_col true m r) (@remove_col E false m r).
Proof. unfold remove_col. rle. Qed.
Lemma transpose_rows_rle : forall m p, rle (transpose_rows true m p) (@transpose_rows E false m p).
Proof. unfold transpose_rows. rle. Qed.
Lemma transpose_cols_rle : forall m p, rle (transpose_cols true m p) (@transpose_cols E false m p).
Proof. unfold transpose_cols. rle. Qed.
End Mat.

Ltac rlmw tac := repeat (intros; first
   [ tac | apply rle_refl | apply rle_assert | apply get_row_rle | apply get_col_rle | apply remove_row_rle | apply remove_col_rle
   | apply transpose_rows_rle | apply transpose_cols_rle
   | assumption | apply rle_bind | apply rle_for | apply rle_each
   | match goal with |- rle (match ?x with _ => _ end) _ => destruct x end ]).
Ltac rlm := rlmw fail.

Lemma sort_rows_rle : forall m, rle (sort_rows true m) (sort_rows false m).
Proof. unfold sort_rows. rlm. Qed.
Lemma sort_cols_rle : forall m, rle (sort_cols true m) (sort_cols false m).
Proof. unfold sort_cols. rlm. Qed.
Lemma calc_row_lincmb_rle : forall m r, rle (calc_row_lincmb true m r) (calc_row_lincmb false m r).
Proof. unfold calc_row_lincmb. rlm. Qed.
Lemma calc_col_lincmb_rle : forall m r, rle (calc_col_lincmb true m r) (calc_col_lincmb false m r).
Proof. unfold calc_col_lincmb. rlm. Qed.
Lemma incomplete_multi_rle : forall c o, rle (incomplete_multi true c o) (incomplete_multi false c o).
Proof.
  unfold incomplete_multi. intros c o. destruct (op_isnull o); [apply rle_refl|]. destruct (coef_eq c kId); [apply rle_refl|].
  simpl. destruct (negb _); [intros y; discriminate|apply rle_refl].
Qed.
Lemma coef_op_mul_rle : forall a b, rle (coef_op_mul true a b) (coef_op_mul false a b).
Proof. unfold coef_op_mul, coef_op_elem. rlmw ltac:(apply incomplete_multi_rle). Qed.
Lemma op_coef_mul_rle : forall a b, rle (op_coef_mul true a b) (op_coef_mul false a b).
Proof. unfold op_coef_mul, op_coef_elem. rlmw ltac:(apply incomplete_multi_rle). Qed.
Lemma row_lincmb_rle : forall m c, rle (row_lincmb true m c) (row_lincmb false m c).
Proof. unfold row_lincmb, scale_elem. rlm. Qed.
Lemma col_lincmb_rle : forall m c, rle (col_lincmb true m c) (col_lincmb false m c).
Proof. unfold col_lincmb, scale_elem. rlm. Qed.
Lemma row_delin_rle : forall t f, rle (row_delin true t f) (row_delin false t f).
Proof.
  unfold row_delin, row_delin_step.
  rlmw ltac:(first [apply calc_row_lincmb_rle | apply row_lincmb_rle | apply op_coef_mul_rle]).
Qed.
Lemma col_delin_rle : forall t f, rle (col_delin true t f) (col_delin false t f).
Proof.
  unfold col_delin, col_delin_step.
  rlmw ltac:(first [apply calc_col_lincmb_rle | apply col_lincmb_rle | apply coef_op_mul_rle]).
Qed.
Lemma row_compress_rle : forall t f, rle (row_compress true t f) (row_compress false t f).
Proof.
  unfold row_compress.
  rlmw ltac:(first [apply sort_rows_rle | apply row_delin_rle | apply op_coef_mul_rle]).
Qed.
Lemma col_compress_rle : forall t f, rle (col_compress true t f) (col_compress false t f).
Proof.
  unfold col_compress.
  rlmw ltac:(first [apply sort_cols_rle | apply col_delin_rle | apply coef_op_mul_rle]).
Qed.
Lemma compress_chain_rle : forall n ms, rle (compress_chain true n ms) (compress_chain false n ms).
Proof.
  unfold compress_chain, compress_lr, compress_rl.
  rlmw ltac:(first [apply col_compress_rle | apply row_compress_rle]).
Qed.
Lemma gen_compressed_rle : forall f, rle (gen_compressed true f) (gen_compressed false f).
Proof. unfold gen_compressed. rlmw ltac:(first [apply compress_chain_rle]). Qed.

Lemma gen_mpo_rle : forall R r0 radd rmul Q qsub qeqb dv c q g,
  rle (gen_mpo R r0 radd rmul Q qsub qeqb dv true c q g) (gen_mpo R r0 radd rmul Q qsub qeqb dv false c q g).
Proof.
  unfold gen_mpo, ten_step, sort_cols_qn, qn_row. rlmw ltac:(first [apply gen_compressed_rle]).
Qed.
Lemma gen_mat_mpo_rle : forall R r0 radd rmul g, rle (gen_mat_mpo R r0 radd rmul true g) (gen_mat_mpo R r0 radd rmul false g).
Proof. unfold gen_mat_mpo. rlmw ltac:(first [apply gen_compressed_rle]). Qed.
Lemma add_term_rle : forall R r0 ropp reqb isneg small g c ops idxs,
  rle (add_term R r0 ropp reqb isneg small true g c ops idxs) (add_term R r0 ropp reqb isneg small false g c ops idxs).
Proof. unfold add_term, add_path. rlmw ltac:(apply rle_unit). Qed.
Lemma add_term_inst_rle : forall R r0 ropp reqb isneg small g c p i f ii,
  rle (add_term_inst R r0 ropp reqb isneg small true g c p i f ii) (add_term_inst R r0 ropp reqb isneg small false g c p i f ii).
Proof. unfold add_term_inst. rlmw ltac:(first [apply add_term_rle]). Qed.
Lemma add_term2_rle : forall R r0 ropp reqb isneg small g c p i f ii o oi,
  rle (add_term2 R r0 ropp reqb isneg small true g c p i f ii o oi) (add_term2 R r0 ropp reqb isneg small false g c p i f ii o oi).
Proof. unfold add_term2. rlmw ltac:(first [apply add_term_inst_rle | apply add_term_rle]). Qed.
