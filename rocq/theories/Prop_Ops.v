(** C46 - C49: local operators and model terms *)
From Coq Require Import List Arith Lia Bool ZArith Ring QArith.
From Verif Require Import Base MpoGen MpoSpec MpoTen MpoTenSpec MpoRunSpec FermionSpec FermionFacts Ops OpsSpec OpsFacts OpsModels OpsTables OpsInst.
Import ListNotations.
Local Open Scope nat_scope.

(** the operators [ann], [cre] of FermionSpec.v are fermions: anticommutation relations *)
Theorem C46_anticommutation :
  (forall a b n, a <> b -> same_res (smul (ann a) (cre b) n) (minus (smul (cre b) (ann a) n))) /\
  (forall a b n, same_res (smul (ann a) (ann b) n) (minus (smul (ann b) (ann a) n))) /\
  (forall a b n, same_res (smul (cre a) (cre b) n) (minus (smul (cre b) (cre a) n))) /\
  (forall a n, (same_res (smul (cre a) (ann a) n) (Some (false, n)) /\ smul (ann a) (cre a) n = None) \/
               (same_res (smul (ann a) (cre a) n) (Some (false, n)) /\ smul (cre a) (ann a) n = None)).
Proof. split; [exact car_ac|]. split; [exact car_aa|]. split; [exact car_cc|exact car_same]. Qed.
Print Assumptions C46_anticommutation.

Section Models.
Variables (R : Type) (r0 r1 : R) (radd rmul rsub : R -> R -> R) (ropp : R -> R).
Variable Rth : ring_theory r0 r1 radd rmul rsub ropp (@eq R).
Variables (reqb : R -> R -> bool) (isneg small : R -> bool).
Hypothesis reqb_spec : forall x y, reqb x y = true <-> x = y.
Hypothesis small_opp : forall x, small (ropp x) = small x.
Hypothesis one_zero : r1 <> r0.
Variables (half im : R).
Hypothesis half_spec : radd half half = r1.
Variable conj : R -> R.
Hypothesis conj_conj : forall x, conj (conj x) = x.
Hypothesis conj_kept : forall x, kept R r0 reqb small (conj x) = kept R r0 reqb small x.
Hypothesis im_spec : rmul im im = ropp r1.
Notation Gen charge dbg compress g := (gen_mpo R r0 radd rmul (Z * Z) zsub2 (fun a b => (fst a =? fst b)%Z && (snd a =? snd b)%Z) (div_of R r0 reqb charge) dbg compress (0, 0)%Z g).
Notation amp ts s s' := (mpo_amp R r0 r1 radd rmul reqb (Z * Z) ts s s').
Notation AddTerms dbg N idop calls := (run R r0 r1 ropp reqb isneg small dbg (repeat 0 N) (repeat idop N) calls).
Notation some_kept l := (existsb (fun x : R * nat * nat => kept R r0 reqb small (fst (fst x))) l).
Notation below d N s s' := (forall k, k < N -> s k < d /\ s' k < d).

(** C46: for every list of bonds the MPO has the matrix elements of the sum of the fermion hoppings *)
Theorem C46_hubbard_hopping : forall q N l, bonds_ok R N l -> some_kept l = true ->
  forall dbg, exists g, AddTerms dbg N (h_id R r0 r1 (hub_site q)) (hub_hops R r0 r1 ropp (hub_site q) l) = Ok g /\
  forall dbg' compress, exists ts, Gen (hub_charge q) dbg' compress g = Ok ts /\ forall s s', below 4 N s s' ->
    amp ts s s' = hoppings R r0 r1 radd rmul ropp reqb small (fun t => t) N (one_of (h_dbl (hub_site q)) (h_up (hub_site q))) (one_of (h_dbl (hub_site q)) (h_dn (hub_site q))) s s' l.
Proof. exact (hub_mpo R r0 r1 radd rmul rsub ropp Rth reqb isneg small reqb_spec small_opp one_zero half half_spec). Qed.
(** C47: the same with the complex conjugate amplitude for the second half, on states without double occupation *)
Theorem C47_tj_hopping : forall q N l, bonds_ok R N l -> some_kept l = true ->
  exists calls, tj_hops R r0 r1 ropp conj (tj_site q) l = Ok calls /\
  forall dbg, exists g, AddTerms dbg N (t_id R r0 r1 (tj_site q)) calls = Ok g /\
  forall dbg' compress, exists ts, Gen (tj_charge q) dbg' compress g = Ok ts /\ forall s s', below 3 N s s' ->
    amp ts s s' = hoppings R r0 r1 radd rmul ropp reqb small conj N (Nat.eqb (t_up (tj_site q))) (Nat.eqb (t_dn (tj_site q))) s s' l.
Proof. exact (tj_mpo R r0 r1 radd rmul rsub ropp Rth reqb isneg small reqb_spec small_opp one_zero half half_spec conj conj_conj conj_kept). Qed.
Theorem C47_same_site_throws : forall q t i, tj_hop R r0 r1 ropp conj (tj_site q) t i i = Abort.
Proof. intros q t i. unfold tj_hop. rewrite Nat.ltb_irrefl. reflexivity. Qed.

(** C48: the tables *)
Notation c2 := (radd r1 r1). Notation c4 := (rmul c2 c2).
Notation elem := (MpoSpec.elem r0). Notation lmul := (lmul R r0 radd rmul).
Notation is_product := (is_product R r0 radd rmul). Notation is_sum := (is_sum R r0 radd).
Notation is_difference := (is_difference R r0 radd rmul ropp). Notation is_multiple_sum := (is_multiple_sum R r0 radd rmul).
Notation is_fermion := (is_fermion R r0 r1 ropp).
Notation U := (mode false 0). Notation D := (mode true 0).
Theorem C48_hubbard_products : forall q, let h := hub_site q in
  is_product 4 (h_bupc R r0 r1 h) (h_f R r0 r1 ropp h) (h_bupcF R r0 r1 ropp h) /\
  is_product 4 (h_bupa R r0 r1 h) (h_f R r0 r1 ropp h) (h_bupaF R r0 r1 ropp h) /\
  is_product 4 (h_f R r0 r1 ropp h) (h_bdnc R r0 r1 h) (h_Fbdnc R r0 r1 ropp h) /\
  is_product 4 (h_f R r0 r1 ropp h) (h_bdna R r0 r1 h) (h_Fbdna R r0 r1 ropp h) /\
  is_product 4 (h_nup R r0 r1 h) (h_ndn R r0 r1 h) (h_nupndn R r0 r1 h) /\
  is_sum 4 (h_nup R r0 r1 h) (h_ndn R r0 r1 h) (h_nf R r0 r1 h c2) /\
  is_product 4 (h_nf R r0 r1 h c2) (h_nf R r0 r1 h c2) (h_nfsquare R r0 r1 h c4) /\
  is_difference 4 half (h_nup R r0 r1 h) (h_ndn R r0 r1 h) (h_sz R r0 half ropp h) /\
  is_multiple_sum 4 half (h_sp R r0 r1 h) (h_sm R r0 r1 h) (h_sx R r0 half h) /\
  is_difference 4 (rmul im half) (h_sm R r0 r1 h) (h_sp R r0 r1 h) (h_sy R r0 half im rmul ropp h).
Proof. exact (hub_products R r0 r1 radd rmul rsub ropp Rth half im). Qed.
(** the tables are the fermion operators of one site; bdnc and bdna need the parity *)
Theorem C48_hubbard_fermions : forall q, let h := hub_site q in
  let up := one_of (h_dbl h) (h_up h) in let dn := one_of (h_dbl h) (h_dn h) in
  is_fermion 4 up dn (cre U) (elem (h_bupc R r0 r1 h)) /\ is_fermion 4 up dn (ann U) (elem (h_bupa R r0 r1 h)) /\
  is_fermion 4 up dn (cre D) (lmul 4 (h_bdnc R r0 r1 h) (h_f R r0 r1 ropp h)) /\ is_fermion 4 up dn (ann D) (lmul 4 (h_f R r0 r1 ropp h) (h_bdna R r0 r1 h)) /\
  is_fermion 4 up dn (smul (cre U) (cre D)) (elem (h_cupccdnc R r0 r1 h)) /\ is_fermion 4 up dn (smul (ann D) (ann U)) (elem (h_cdnacupa R r0 r1 h)) /\
  is_fermion 4 up dn (smul (cre U) (ann D)) (elem (h_sp R r0 r1 h)) /\ is_fermion 4 up dn (smul (cre D) (ann U)) (elem (h_sm R r0 r1 h)) /\
  is_fermion 4 up dn (smul (cre U) (ann U)) (elem (h_nup R r0 r1 h)) /\ is_fermion 4 up dn (smul (cre D) (ann D)) (elem (h_ndn R r0 r1 h)) /\
  is_fermion 4 up dn (fun n => Some (xorb (n U) (n D), n)) (elem (h_f R r0 r1 ropp h)) /\ is_fermion 4 up dn (fun n => Some (false, n)) (elem (h_id R r0 r1 h)).
Proof. exact (hub_fermions R r0 r1 radd rmul rsub ropp Rth). Qed.
Theorem C48_tj_tables : forall q, let h := tj_site q in let up := Nat.eqb (t_up h) in let dn := Nat.eqb (t_dn h) in
  (is_sum 3 (t_nup R r0 r1 h) (t_ndn R r0 r1 h) (t_nf R r0 r1 h) /\ is_difference 3 half (t_nup R r0 r1 h) (t_ndn R r0 r1 h) (t_sz R r0 half ropp h) /\
   is_product 3 (t_bupc R r0 r1 h) (t_bupa R r0 r1 h) (t_nup R r0 r1 h) /\ is_product 3 (t_bdnc R r0 r1 h) (t_bdna R r0 r1 h) (t_ndn R r0 r1 h) /\
   is_product 3 (t_bupc R r0 r1 h) (t_bdna R r0 r1 h) (t_sp R r0 r1 h) /\ is_product 3 (t_bdnc R r0 r1 h) (t_bupa R r0 r1 h) (t_sm R r0 r1 h)) /\
  is_fermion 3 up dn (cre U) (elem (t_bupc R r0 r1 h)) /\ is_fermion 3 up dn (ann U) (elem (t_bupa R r0 r1 h)) /\
  is_fermion 3 up dn (cre D) (elem (t_bdnc R r0 r1 h)) /\ is_fermion 3 up dn (ann D) (elem (t_bdna R r0 r1 h)) /\
  is_fermion 3 up dn (smul (cre U) (ann D)) (elem (t_sp R r0 r1 h)) /\ is_fermion 3 up dn (smul (cre D) (ann U)) (elem (t_sm R r0 r1 h)) /\
  is_fermion 3 up dn (smul (cre U) (ann U)) (elem (t_nup R r0 r1 h)) /\ is_fermion 3 up dn (smul (cre D) (ann D)) (elem (t_ndn R r0 r1 h)) /\
  is_fermion 3 up dn (fun n => Some (xorb (n U) (n D), n)) (elem (t_f R r0 r1 ropp h)) /\ is_fermion 3 up dn (fun n => Some (false, n)) (elem (t_id R r0 r1 h)).
Proof. intros q. split; [exact (tj_products R r0 r1 radd rmul rsub ropp Rth half q)|exact (tj_fermions R r0 r1 ropp q)]. Qed.
(** the two t-J composites hold each other's values: neither is what its name and comment say *)
Theorem C48_tj_exchanged_refuted : forall q, let h := tj_site q in let up := Nat.eqb (t_up h) in let dn := Nat.eqb (t_dn h) in
  (is_fermion 3 up dn (smul (cre U) (ann D)) (elem (t_bdnc_multi_bupa R r0 r1 h)) /\ is_product 3 (t_bupc R r0 r1 h) (t_bdna R r0 r1 h) (t_bdnc_multi_bupa R r0 r1 h) /\
   is_fermion 3 up dn (smul (cre D) (ann U)) (elem (t_bupc_multi_bdna R r0 r1 h)) /\ is_product 3 (t_bdnc R r0 r1 h) (t_bupa R r0 r1 h) (t_bupc_multi_bdna R r0 r1 h)) /\
  ~ is_product 3 (t_bdnc R r0 r1 h) (t_bupa R r0 r1 h) (t_bdnc_multi_bupa R r0 r1 h) /\ ~ is_product 3 (t_bupc R r0 r1 h) (t_bdna R r0 r1 h) (t_bupc_multi_bdna R r0 r1 h) /\
  ~ is_fermion 3 up dn (smul (cre D) (ann U)) (elem (t_bdnc_multi_bupa R r0 r1 h)) /\ ~ is_fermion 3 up dn (smul (cre U) (ann D)) (elem (t_bupc_multi_bdna R r0 r1 h)).
Proof. exact (fun q => tj_exchanged R r0 r1 radd rmul rsub ropp Rth half q one_zero). Qed.
Theorem C48_spin_tables :
  is_multiple_sum 2 half (s_sp R r0 r1) (s_sm R r0 r1) (s_sx R r0 half) /\
  is_difference 2 (rmul im half) (s_sm R r0 r1) (s_sp R r0 r1) (s_sy R r0 half im rmul ropp) /\
  (forall c r, c < 2 -> r < 2 -> elem (s_id R r0 r1) c r = if c =? r then r1 else r0).
Proof. exact (spin_tables R r0 r1 radd rmul rsub ropp Rth half im). Qed.
(** the spin operators of the three kinds of sites satisfy the spin algebra *)
Theorem C48_spin_algebra :
  spin_algebra R r0 r1 radd rmul ropp 2 (s_sz R r0 half ropp) (s_sp R r0 r1) (s_sm R r0 r1) /\
  (forall q, spin_algebra R r0 r1 radd rmul ropp 3 (t_sz R r0 half ropp (tj_site q)) (t_sp R r0 r1 (tj_site q)) (t_sm R r0 r1 (tj_site q))) /\
  (forall q, spin_algebra R r0 r1 radd rmul ropp 4 (h_sz R r0 half ropp (hub_site q)) (h_sp R r0 r1 (hub_site q)) (h_sm R r0 r1 (hub_site q))) /\
  spin_xyz R r0 im radd rmul ropp 2 (s_sx R r0 half) (s_sy R r0 half im rmul ropp) (s_sz R r0 half ropp) /\
  (forall q, spin_xyz R r0 im radd rmul ropp 4 (h_sx R r0 half (hub_site q)) (h_sy R r0 half im rmul ropp (hub_site q)) (h_sz R r0 half ropp (hub_site q))).
Proof.
  split; [exact (spin_spin R r0 r1 radd rmul rsub ropp Rth half half_spec)|]. split; [exact (tj_spin R r0 r1 radd rmul rsub ropp Rth half half_spec)|].
  split; [exact (hub_spin R r0 r1 radd rmul rsub ropp Rth half half_spec)|]. split; [exact (spin_xyz_ok R r0 r1 radd rmul rsub ropp Rth half im half_spec im_spec)|exact (hub_xyz_ok R r0 r1 radd rmul rsub ropp Rth half im half_spec im_spec)].
Qed.

(** C49: J S.S for every list of bonds, on spin-1/2, t-J and Hubbard sites *)
Notation heis_statement d charge idop sz sp sm sx sy :=
  (forall N l, bonds_ok R N l -> some_kept l = true ->
  exists calls, (forall dbg, heisenbergs R half rmul sz sp sm dbg l = Ok calls) /\
  forall dbg, exists g, AddTerms dbg N idop calls = Ok g /\
  forall dbg' compress, exists ts, Gen charge dbg' compress g = Ok ts /\ forall s s', below d N s s' ->
    amp ts s s' = couplings R r0 half radd rmul reqb small N sx sy sz s s' l) (only parsing).
Theorem C49_spin : forall q, heis_statement 2 (spin_charge q) (s_id R r0 r1) (s_sz R r0 half ropp) (s_sp R r0 r1) (s_sm R r0 r1) (s_sx R r0 half) (s_sy R r0 half im rmul ropp).
Proof. exact (spin_heis R r0 r1 radd rmul rsub ropp Rth reqb isneg small reqb_spec one_zero half im half_spec im_spec). Qed.
Theorem C49_hubbard : forall q, let h := hub_site q in
  heis_statement 4 (hub_charge q) (h_id R r0 r1 h) (h_sz R r0 half ropp h) (h_sp R r0 r1 h) (h_sm R r0 r1 h) (h_sx R r0 half h) (h_sy R r0 half im rmul ropp h).
Proof. exact (hub_heis R r0 r1 radd rmul rsub ropp Rth reqb isneg small reqb_spec one_zero half im half_spec im_spec). Qed.
Theorem C49_tj : forall q, let h := tj_site q in
  heis_statement 3 (tj_charge q) (t_id R r0 r1 h) (t_sz R r0 half ropp h) (t_sp R r0 r1 h) (t_sm R r0 r1 h) (tj_sx R r0 half) (tj_sy R r0 half im rmul ropp).
Proof. exact (tj_heis R r0 r1 radd rmul rsub ropp Rth reqb isneg small reqb_spec one_zero half im half_spec im_spec). Qed.
(** the scalar product does not depend on the order of the two sites *)
Theorem C49_symmetric : forall N sx sy sz s s' J i j, coupling R r0 half radd rmul reqb small N sx sy sz s s' J i j = coupling R r0 half radd rmul reqb small N sx sy sz s s' J j i.
Proof. intros. unfold coupling. now rewrite !(pair_sym R r0 r1 radd rmul rsub ropp Rth N s s' _ _ i j). Qed.
Theorem C49_same_site_asserts : forall sz sp sm J i, heisenberg R half rmul true sz sp sm J i i = Abort.
Proof. intros. unfold heisenberg. rewrite Nat.eqb_refl. reflexivity. Qed.
End Models.
Print Assumptions C46_hubbard_hopping.
Print Assumptions C47_tj_hopping.
Print Assumptions C47_same_site_throws.
Print Assumptions C48_hubbard_products.
Print Assumptions C48_hubbard_fermions.
Print Assumptions C48_tj_tables.
Print Assumptions C48_tj_exchanged_refuted.
Print Assumptions C48_spin_tables.
Print Assumptions C48_spin_algebra.
Print Assumptions C49_spin.
Print Assumptions C49_hubbard.
Print Assumptions C49_tj.
Print Assumptions C49_symmetric.
Print Assumptions C49_same_site_asserts.

(** the hypotheses are met by complex rationals; an electron that passes another one of the other spin changes sign *)
Example C46_case :
  let l := [(gre 1, 0, 2); (gre (2 # 3), 2, 1)] in let s := fun k => nth k [1; 2; 3] 0 in let s' := fun k => nth k [3; 2; 1] 0 in
  bonds_ok gq 3 l /\ existsb (fun x : gq * nat * nat => kept gq g0 geqb gsmall (fst (fst x))) l = true /\
  (forall k, k < 3 -> s k < 4 /\ s' k < 4) /\
  geqb (hoppings gq g0 g1 gadd gmul gopp geqb gsmall (fun t => t) 3 (one_of 0 1) (one_of 0 2) s s' l) (gre 1) = true /\
  geqb (hoppings gq g0 g1 gadd gmul gopp geqb gsmall (fun t => t) 3 (one_of 0 1) (one_of 0 2) (fun k => nth k [1; 3; 3] 0) (fun k => nth k [3; 3; 1] 0) l) (gre (-1)) = true.
Proof. split; [repeat constructor; cbn; lia|]. split; [vm_compute; auto|]. split; [intros [|[|[|k]]] H; cbn; lia|]. split; vm_compute; auto. Qed.
Example C47_case :
  let l := [(gadd (gre 1) gim, 2, 0)] in let s := fun k => nth k [0; 1; 2] 0 in let s' := fun k => nth k [2; 1; 0] 0 in
  bonds_ok gq 3 l /\ existsb (fun x : gq * nat * nat => kept gq g0 geqb gsmall (fst (fst x))) l = true /\
  geqb (hoppings gq g0 g1 gadd gmul gopp geqb gsmall gconj 3 (Nat.eqb 0) (Nat.eqb 1) s s' l) (gadd (gre 1) gim) = true /\
  geqb (hoppings gq g0 g1 gadd gmul gopp geqb gsmall gconj 3 (Nat.eqb 0) (Nat.eqb 1) s' s l) (gsub (gre 1) gim) = true.
Proof. split; [repeat constructor; cbn; lia|]. repeat split; vm_compute; auto. Qed.
Example C46_ring : ring_theory g0 g1 gadd gmul gsub gopp (@eq gq) /\ (forall x y, geqb x y = true <-> x = y) /\ (forall x, gsmall (gopp x) = gsmall x) /\ g1 <> g0 /\
  gadd ghalf ghalf = g1 /\ gmul gim gim = gopp g1 /\ (forall x, gconj (gconj x) = x) /\ (forall x, gsmall (gconj x) = gsmall x).
Proof. split; [exact g_ring|]. split; [exact g_eqb|]. split; [exact g_small_opp|]. split; [exact g_one|]. split; [exact g_half|]. split; [exact g_im|]. split; [exact g_conj|exact g_small_conj]. Qed.
Example C49_case :
  let l := [(gre 1, 2, 0); (gre (1 # 3), 0, 1)] in let s := fun k => nth k [0; 1; 1] 0 in let s' := fun k => nth k [1; 1; 0] 0 in
  bonds_ok gq 3 l /\ existsb (fun x : gq * nat * nat => kept gq g0 geqb gsmall (fst (fst x))) l = true /\
  geqb (couplings gq g0 ghalf gadd gmul geqb gsmall 3 (s_sx gq g0 ghalf) (s_sy gq g0 ghalf gim gmul gopp) (s_sz gq g0 ghalf gopp) s s' l) ghalf = true /\
  geqb (couplings gq g0 ghalf gadd gmul geqb gsmall 3 (s_sx gq g0 ghalf) (s_sy gq g0 ghalf gim gmul gopp) (s_sz gq g0 ghalf gopp) s s l) (gre (-1 # 3)) = true.
Proof. split; [repeat constructor; cbn; lia|]. repeat split; vm_compute; auto. Qed.
