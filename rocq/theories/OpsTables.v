(** Proofs about Ops.v: the tables of local operators *)
From Coq Require Import List Arith Lia Bool ZArith Ring.
From Verif Require Import Base Disk MpoGen MpoSpec MpoTen MpoTenSpec MpoTopSpec MpoRunSpec FermionSpec FermionFacts Ops OpsSpec OpsFacts OpsModels.
Import ListNotations.
Local Open Scope nat_scope.

Section Tables.
Variables (R : Type) (r0 r1 : R) (radd rmul rsub : R -> R -> R) (ropp : R -> R).
Variable Rth : ring_theory r0 r1 radd rmul rsub ropp (@eq R).
Add Ring Rr : Rth.
Variables (half im : R).
Hypothesis half_spec : radd half half = r1.
Hypothesis im_spec : rmul im im = ropp r1.
Notation elem := (elem r0).
Notation is_product := (is_product R r0 radd rmul). Notation is_sum := (is_sum R r0 radd).
Notation is_difference := (is_difference R r0 radd rmul ropp). Notation is_multiple_sum := (is_multiple_sum R r0 radd rmul).
Notation is_fermion := (is_fermion R r0 r1 ropp).
Notation lmul := (lmul R r0 radd rmul).
Notation c2 := (radd r1 r1). Notation c4 := (rmul c2 c2).
Lemma dhalf x : radd (rmul half x) (rmul half x) = x.
Proof. transitivity (rmul (radd half half) x); [ring|]. rewrite half_spec. ring. Qed.
Ltac delt := cbv beta zeta delta [h_sz h_sp h_sm h_id h_sx h_sy h_f h_bupc h_bdnc h_bupa h_bdna h_bupcF h_Fbdnc h_bupaF h_Fbdna h_cupccdnc h_cdnacupa h_nupndn h_nf h_nfsquare h_nup h_ndn
  t_sz t_sp t_sm t_id t_f t_bupc t_bdnc t_bupa t_bdna t_nf t_nup t_ndn t_bdnc_multi_bupa t_bupc_multi_bdna s_sz s_sp s_sm s_id s_sx s_sy].
Ltac c4s c r := destruct c as [|[|[|[|c]]]]; try lia; destruct r as [|[|[|[|r]]]]; try lia.
Ltac fin := first [reflexivity|ring].
Ltac tabs := intros c r Hc Hr; unfold OpsSpec.lmul, lsum, local_elem; delt; rewrite ?elem_ten; cbn [seq fold_right]; rewrite ?elem_ten; c4s c r; cbn; fin.

Section Hub.
Variable q : qnt.
Notation h := (hub_site q).
Notation up := (one_of (h_dbl h) (h_up h)). Notation dn := (one_of (h_dbl h) (h_dn h)).
Notation U := (mode false 0). Notation D := (mode true 0).
Lemma hub_products : is_product 4 (h_bupc R r0 r1 h) (h_f R r0 r1 ropp h) (h_bupcF R r0 r1 ropp h) /\
  is_product 4 (h_bupa R r0 r1 h) (h_f R r0 r1 ropp h) (h_bupaF R r0 r1 ropp h) /\
  is_product 4 (h_f R r0 r1 ropp h) (h_bdnc R r0 r1 h) (h_Fbdnc R r0 r1 ropp h) /\
  is_product 4 (h_f R r0 r1 ropp h) (h_bdna R r0 r1 h) (h_Fbdna R r0 r1 ropp h) /\
  is_product 4 (h_nup R r0 r1 h) (h_ndn R r0 r1 h) (h_nupndn R r0 r1 h) /\
  is_sum 4 (h_nup R r0 r1 h) (h_ndn R r0 r1 h) (h_nf R r0 r1 h c2) /\
  is_product 4 (h_nf R r0 r1 h c2) (h_nf R r0 r1 h c2) (h_nfsquare R r0 r1 h c4) /\
  is_difference 4 half (h_nup R r0 r1 h) (h_ndn R r0 r1 h) (h_sz R r0 half ropp h) /\
  is_multiple_sum 4 half (h_sp R r0 r1 h) (h_sm R r0 r1 h) (h_sx R r0 half h) /\
  is_difference 4 (rmul im half) (h_sm R r0 r1 h) (h_sp R r0 r1 h) (h_sy R r0 half im rmul ropp h).
Proof. destruct q; (repeat split; [tabs|tabs|tabs|tabs|tabs|tabs|tabs|tabs|tabs|tabs]). Qed.
Lemma hub_fermions :
  is_fermion 4 up dn (cre U) (elem (h_bupc R r0 r1 h)) /\ is_fermion 4 up dn (ann U) (elem (h_bupa R r0 r1 h)) /\
  is_fermion 4 up dn (cre D) (lmul 4 (h_bdnc R r0 r1 h) (h_f R r0 r1 ropp h)) /\ is_fermion 4 up dn (ann D) (lmul 4 (h_f R r0 r1 ropp h) (h_bdna R r0 r1 h)) /\
  is_fermion 4 up dn (smul (cre U) (cre D)) (elem (h_cupccdnc R r0 r1 h)) /\ is_fermion 4 up dn (smul (ann D) (ann U)) (elem (h_cdnacupa R r0 r1 h)) /\
  is_fermion 4 up dn (smul (cre U) (ann D)) (elem (h_sp R r0 r1 h)) /\ is_fermion 4 up dn (smul (cre D) (ann U)) (elem (h_sm R r0 r1 h)) /\
  is_fermion 4 up dn (smul (cre U) (ann U)) (elem (h_nup R r0 r1 h)) /\ is_fermion 4 up dn (smul (cre D) (ann D)) (elem (h_ndn R r0 r1 h)) /\
  is_fermion 4 up dn (fun n => Some (xorb (n U) (n D), n)) (elem (h_f R r0 r1 ropp h)) /\ is_fermion 4 up dn (fun n => Some (false, n)) (elem (h_id R r0 r1 h)).
Proof. destruct q; (repeat split; [tabs|tabs|tabs|tabs|tabs|tabs|tabs|tabs|tabs|tabs|tabs|tabs]). Qed.
Lemma hub_spin : spin_algebra R r0 r1 radd rmul ropp 4 (h_sz R r0 half ropp h) (h_sp R r0 r1 h) (h_sm R r0 r1 h).
Proof.
  destruct q; (split; [|split]); intros c r Hc Hr; unfold OpsSpec.lmul, lsum; delt; cbn [seq fold_right]; rewrite ?elem_ten; c4s c r; cbn;
    try ring; rewrite <- half_spec; ring.
Qed.
End Hub.
Section Tj.
Variable q : qnt.
Notation h := (tj_site q).
Notation up := (Nat.eqb (t_up h)). Notation dn := (Nat.eqb (t_dn h)).
Notation U := (mode false 0). Notation D := (mode true 0).
Lemma tj_products : is_sum 3 (t_nup R r0 r1 h) (t_ndn R r0 r1 h) (t_nf R r0 r1 h) /\
  is_difference 3 half (t_nup R r0 r1 h) (t_ndn R r0 r1 h) (t_sz R r0 half ropp h) /\
  is_product 3 (t_bupc R r0 r1 h) (t_bupa R r0 r1 h) (t_nup R r0 r1 h) /\ is_product 3 (t_bdnc R r0 r1 h) (t_bdna R r0 r1 h) (t_ndn R r0 r1 h) /\
  is_product 3 (t_bupc R r0 r1 h) (t_bdna R r0 r1 h) (t_sp R r0 r1 h) /\ is_product 3 (t_bdnc R r0 r1 h) (t_bupa R r0 r1 h) (t_sm R r0 r1 h).
Proof. repeat split; [tabs|tabs|tabs|tabs|tabs|tabs]. Qed.
Lemma tj_fermions :
  is_fermion 3 up dn (cre U) (elem (t_bupc R r0 r1 h)) /\ is_fermion 3 up dn (ann U) (elem (t_bupa R r0 r1 h)) /\
  is_fermion 3 up dn (cre D) (elem (t_bdnc R r0 r1 h)) /\ is_fermion 3 up dn (ann D) (elem (t_bdna R r0 r1 h)) /\
  is_fermion 3 up dn (smul (cre U) (ann D)) (elem (t_sp R r0 r1 h)) /\ is_fermion 3 up dn (smul (cre D) (ann U)) (elem (t_sm R r0 r1 h)) /\
  is_fermion 3 up dn (smul (cre U) (ann U)) (elem (t_nup R r0 r1 h)) /\ is_fermion 3 up dn (smul (cre D) (ann D)) (elem (t_ndn R r0 r1 h)) /\
  is_fermion 3 up dn (fun n => Some (xorb (n U) (n D), n)) (elem (t_f R r0 r1 ropp h)) /\ is_fermion 3 up dn (fun n => Some (false, n)) (elem (t_id R r0 r1 h)).
Proof. repeat split; [tabs|tabs|tabs|tabs|tabs|tabs|tabs|tabs|tabs|tabs]. Qed.
Lemma tj_spin : spin_algebra R r0 r1 radd rmul ropp 3 (t_sz R r0 half ropp h) (t_sp R r0 r1 h) (t_sm R r0 r1 h).
Proof.
  (split; [|split]); intros c r Hc Hr; unfold OpsSpec.lmul, lsum; delt; cbn [seq fold_right]; rewrite ?elem_ten; c4s c r; cbn;
    try ring; rewrite <- half_spec; ring.
Qed.
Lemma tj_exchanged : r1 <> r0 ->
  (is_fermion 3 up dn (smul (cre U) (ann D)) (elem (t_bdnc_multi_bupa R r0 r1 h)) /\ is_product 3 (t_bupc R r0 r1 h) (t_bdna R r0 r1 h) (t_bdnc_multi_bupa R r0 r1 h) /\
   is_fermion 3 up dn (smul (cre D) (ann U)) (elem (t_bupc_multi_bdna R r0 r1 h)) /\ is_product 3 (t_bdnc R r0 r1 h) (t_bupa R r0 r1 h) (t_bupc_multi_bdna R r0 r1 h)) /\
  ~ is_product 3 (t_bdnc R r0 r1 h) (t_bupa R r0 r1 h) (t_bdnc_multi_bupa R r0 r1 h) /\ ~ is_product 3 (t_bupc R r0 r1 h) (t_bdna R r0 r1 h) (t_bupc_multi_bdna R r0 r1 h) /\
  ~ is_fermion 3 up dn (smul (cre D) (ann U)) (elem (t_bdnc_multi_bupa R r0 r1 h)) /\ ~ is_fermion 3 up dn (smul (cre U) (ann D)) (elem (t_bupc_multi_bdna R r0 r1 h)).
Proof.
  intros NE. split; [repeat split; [tabs|tabs|tabs|tabs]|].
  assert (T := tj_products). assert (F := tj_fermions). destruct T as (_ & _ & _ & _ & T1 & T2). destruct F as (_ & _ & _ & _ & F1 & F2 & _).
  assert (E1 : elem (t_bdnc_multi_bupa R r0 r1 h) 1 0 = r1) by reflexivity. assert (E2 : elem (t_bupc_multi_bdna R r0 r1 h) 0 1 = r1) by reflexivity.
  assert (E3 : elem (t_sm R r0 r1 h) 1 0 = r0) by reflexivity. assert (E4 : elem (t_sp R r0 r1 h) 0 1 = r0) by reflexivity.
  repeat split; intros H; apply NE.
  - etransitivity; [symmetry; exact E1|]. etransitivity; [apply H; lia|]. etransitivity; [symmetry; apply T2; lia|exact E3].
  - etransitivity; [symmetry; exact E2|]. etransitivity; [apply H; lia|]. etransitivity; [symmetry; apply T1; lia|exact E4].
  - etransitivity; [symmetry; exact E1|]. etransitivity; [apply H; lia|]. etransitivity; [symmetry; apply F2; lia|exact E3].
  - etransitivity; [symmetry; exact E2|]. etransitivity; [apply H; lia|]. etransitivity; [symmetry; apply F1; lia|exact E4].
Qed.
End Tj.
Lemma spin_tables : is_multiple_sum 2 half (s_sp R r0 r1) (s_sm R r0 r1) (s_sx R r0 half) /\
  is_difference 2 (rmul im half) (s_sm R r0 r1) (s_sp R r0 r1) (s_sy R r0 half im rmul ropp) /\
  (forall c r, c < 2 -> r < 2 -> elem (s_id R r0 r1) c r = if c =? r then r1 else r0).
Proof. split; [|split]; tabs. Qed.
Lemma spin_spin : spin_algebra R r0 r1 radd rmul ropp 2 (s_sz R r0 half ropp) (s_sp R r0 r1) (s_sm R r0 r1).
Proof.
  (split; [|split]); intros c r Hc Hr; unfold OpsSpec.lmul, lsum; delt; cbn [seq fold_right]; rewrite ?elem_ten; c4s c r; cbn;
    try ring; rewrite <- half_spec; ring.
Qed.
Lemma im2 x : rmul (rmul im im) x = ropp x.
Proof. rewrite im_spec. ring. Qed.
Lemma hh x : radd (rmul (rmul half half) x) (rmul (rmul half half) x) = rmul half x.
Proof. transitivity (rmul (rmul half (radd half half)) x); [ring|]. rewrite half_spec. ring. Qed.
Lemma spin_xyz_ok : spin_xyz R r0 im radd rmul ropp 2 (s_sx R r0 half) (s_sy R r0 half im rmul ropp) (s_sz R r0 half ropp).
Proof.
  (split; [|split]); intros c r Hc Hr; unfold OpsSpec.lmul, lsum; delt; cbn [seq fold_right]; rewrite ?elem_ten; c4s c r; cbn; try ring.
  all: try (transitivity (rmul im (radd (rmul (rmul half half) r1) (rmul (rmul half half) r1))); [ring|rewrite hh; ring]).
  all: try (transitivity (ropp (rmul im (radd (rmul (rmul half half) r1) (rmul (rmul half half) r1)))); [ring|rewrite hh; ring]).
  all: try (transitivity (rmul (rmul im im) (ropp (radd (rmul (rmul half half) r1) (rmul (rmul half half) r1)))); [|rewrite hh; ring]).
  all: try (transitivity (rmul (rmul im im) (radd (rmul (rmul half half) r1) (rmul (rmul half half) r1))); [|rewrite hh; ring]).
  all: rewrite ?im2; ring.
Qed.
Lemma hub_xyz_ok q : spin_xyz R r0 im radd rmul ropp 4 (h_sx R r0 half (hub_site q)) (h_sy R r0 half im rmul ropp (hub_site q)) (h_sz R r0 half ropp (hub_site q)).
Proof.
  destruct q; (split; [|split]); intros c r Hc Hr; unfold OpsSpec.lmul, lsum; delt; cbn [seq fold_right]; rewrite ?elem_ten; c4s c r; cbn; try ring.
  all: try (transitivity (rmul im (radd (rmul (rmul half half) r1) (rmul (rmul half half) r1))); [ring|rewrite hh; ring]).
  all: try (transitivity (ropp (rmul im (radd (rmul (rmul half half) r1) (rmul (rmul half half) r1)))); [ring|rewrite hh; ring]).
  all: try (transitivity (rmul (rmul im im) (ropp (radd (rmul (rmul half half) r1) (rmul (rmul half half) r1)))); [|rewrite hh; ring]).
  all: try (transitivity (rmul (rmul im im) (radd (rmul (rmul half half) r1) (rmul (rmul half half) r1))); [|rewrite hh; ring]).
  all: rewrite ?im2; ring.
Qed.
End Tables.
