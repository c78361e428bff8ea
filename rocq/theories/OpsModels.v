(** Proofs about Ops.v: the terms of the models *)
From Coq Require Import List Arith Lia Bool ZArith Ring.
From Verif Require Import Base Disk MpoGen MpoSpec MpoTen MpoTenSpec MpoTopSpec MpoRunSpec FermionSpec FermionFacts Ops OpsSpec OpsFacts.
Import ListNotations.
Local Open Scope nat_scope.

Section Models.
Variables (R : Type) (r0 r1 : R) (radd rmul rsub : R -> R -> R) (ropp : R -> R).
Variable Rth : ring_theory r0 r1 radd rmul rsub ropp (@eq R).
Add Ring Rr : Rth.
Variables (reqb : R -> R -> bool) (isneg small : R -> bool).
Hypothesis reqb_spec : forall x y, reqb x y = true <-> x = y.
Hypothesis small_opp : forall x, small (ropp x) = small x.
Hypothesis one_zero : r1 <> r0.
Variables (half im : R).
Hypothesis half_spec : radd half half = r1.
Notation lop := (lop R). Notation elem := (elem r0). Notation ten := (ten R r0). Notation lookup := (lookup R r0).
Notation div_of := (div_of R r0 reqb).
Notation good_op := (good_op R r0 reqb).
Notation good_pair := (good_pair R r0 reqb).
Notation counted := (kept R r0 reqb small).
Lemma counted_opp c : counted (ropp c) = counted c.
Proof. unfold kept. rewrite small_opp. rewrite (rq_opp R r0 r1 radd rmul rsub ropp Rth reqb reqb_spec). auto. Qed.

Let Rrefl := rq_refl R reqb reqb_spec.
Let Rone := rq_one R r0 r1 reqb reqb_spec one_zero.
Let Rm1 := rq_m1 R r0 r1 radd rmul rsub ropp Rth reqb reqb_spec one_zero.
Let Rhalf := rq_half R r0 r1 radd rmul rsub ropp Rth reqb reqb_spec one_zero half half_spec.
Let Rmhalf := rq_mhalf R r0 r1 radd rmul rsub ropp Rth reqb reqb_spec one_zero half half_spec.

Ltac rqs := repeat (rewrite ?Rrefl, ?Rone, ?Rm1, ?Rhalf, ?Rmhalf; cbn).
Ltac bound H := rewrite (elem_ten R r0) in H.
Ltac dvc := unfold Ops.div_of; cbn; rqs; try reflexivity.
Ltac good4 := split; [reflexivity|split; [apply ten_square|]]; intros a b H; cbv beta zeta delta [h_sz h_sp h_sm h_id h_f h_bupc h_bdnc h_bupa h_bdna h_bupcF h_Fbdnc h_bupaF h_Fbdna t_sz t_sp t_sm t_id t_f t_bupc t_bdnc t_bupa t_bdna s_sz s_sp s_sm s_id] in H; rewrite (elem_ten R r0) in H;
  destruct a as [|[|[|[|a]]]]; destruct b as [|[|[|[|b]]]]; cbn in H; try (elim H; reflexivity); unfold blk; dvc.
(** ** Sign calculus: [None], [Some false], [Some true] stand for 0, 1, -1 *)
Notation sgn := (sgn R r1 ropp).
Definition val (o : option bool) : R := match o with Some b => sgn b | None => r0 end.
Definition omul (a b : option bool) : option bool := match a, b with Some x, Some y => Some (xorb x y) | _, _ => None end.
Definition oopp (a : option bool) : option bool := option_map negb a.
Fixpoint slook (t : list (nat * nat * bool)) (a b : nat) : option bool := match t with [] => None | (c, r, v) :: t' => if (c =? a) && (r =? b) then Some v else slook t' a b end.
Definition selem (d : nat) (t : list (nat * nat * bool)) (a b : nat) : option bool := if (a <? d) && (b <? d) then slook t a b else None.
Definition sgns (t : list (nat * nat * bool)) : tab R := map (fun x : nat * nat * bool => let '(c, r, v) := x in (c, r, sgn v)) t.
Lemma val_mul a b : rmul (val a) (val b) = val (omul a b).
Proof. destruct a as [[]|], b as [[]|]; cbn; ring. Qed.
Lemma val_opp a : ropp (val a) = val (oopp a).
Proof. destruct a as [[]|]; cbn; ring. Qed.
Lemma elem_sgns d t a b : elem (ten d (sgns t)) a b = val (selem d t a b).
Proof. rewrite elem_ten. unfold selem. destruct ((a <? d) && (b <? d)); auto. induction t as [|[[c r] v] t IH]; cbn; auto. destruct ((c =? a) && (r =? b)); auto. Qed.
Definition oeqb (a b : option bool) : bool := match a, b with Some x, Some y => eqb x y | None, None => true | _, _ => false end.
Lemma check d (f g : nat -> nat -> nat -> nat -> option bool) :
  forallb (fun x => forallb (fun y => forallb (fun x' => forallb (fun y' => oeqb (f x y x' y') (g x y x' y')) (seq 0 d)) (seq 0 d)) (seq 0 d)) (seq 0 d) = true ->
  forall x y x' y', x < d -> y < d -> x' < d -> y' < d -> f x y x' y' = g x y x' y'.
Proof.
  intros H x y x' y' A B C D. rewrite forallb_forall in H. assert (Z : forall k, k < d -> In k (seq 0 d)) by (intros; apply in_seq; lia). specialize (H x (Z x A)). rewrite forallb_forall in H. specialize (H y (Z y B)). rewrite forallb_forall in H. specialize (H x' (Z x' C)). rewrite forallb_forall in H. specialize (H y' (Z y' D)).
  destruct (f x y x' y') as [[]|], (g x y x' y') as [[]|]; auto; discriminate.
Qed.
Definition check4 := check 4.
Definition check3 := check 3.
Definition leftpart (up dn : nat -> bool) (sp P : bool) (x y x' y' : nat) : R :=
  if occ up dn sp y && negb (occ up dn sp x) && moved up dn sp true x x' && moved up dn sp false y y' then sgn (xorb (xorb (sp && up x) (odd_occ up dn x)) (xorb P (sp && up y))) else r0.
Definition rightpart (up dn : nat -> bool) (sp P : bool) (x y x' y' : nat) : R :=
  if occ up dn sp x && negb (occ up dn sp y) && moved up dn sp false x x' && moved up dn sp true y y' then sgn (negb (xorb (xorb (sp && up x) (odd_occ up dn x)) (xorb P (sp && up y)))) else r0.
Lemma leftpart_val up dn sp P x y x' y' : leftpart up dn sp P x y x' y' =
  val (if occ up dn sp y && negb (occ up dn sp x) && moved up dn sp true x x' && moved up dn sp false y y' then Some (xorb (xorb (sp && up x) (odd_occ up dn x)) (xorb P (sp && up y))) else None).
Proof. unfold leftpart. destruct (_ && _); auto. Qed.
Lemma rightpart_val up dn sp P x y x' y' : rightpart up dn sp P x y x' y' =
  val (if occ up dn sp x && negb (occ up dn sp y) && moved up dn sp false x x' && moved up dn sp true y y' then Some (negb (xorb (xorb (sp && up x) (odd_occ up dn x)) (xorb P (sp && up y)))) else None).
Proof. unfold rightpart. destruct (_ && _); auto. Qed.
(** ** Hubbard model *)
Section Hubbard.
Variable q : qnt.
Notation h := (hub_site q). Notation ch := (hub_charge q).
Notation up := (one_of (h_dbl h) (h_up h)). Notation dn := (one_of (h_dbl h) (h_dn h)).
Lemma hub_inj x y : x < 4 -> y < 4 -> up x = up y -> dn x = dn y -> x = y.
Proof. intros HX HY. destruct q; destruct x as [|[|[|[|x]]]]; destruct y as [|[|[|[|y]]]]; try lia; cbn; auto; discriminate. Qed.
Lemma hub_id_good : good_op 4 ch (h_id R r0 r1 h).
Proof. destruct q; good4. Qed.
Lemma hub_id_div : div_of ch (h_id R r0 r1 h) = q00.
Proof. destruct q; dvc. Qed.
Lemma hub_f_good : good_op 4 ch (h_f R r0 r1 ropp h).
Proof. destruct q; good4. Qed.
Lemma hub_f_div : div_of ch (h_f R r0 r1 ropp h) = q00.
Proof. destruct q; dvc. Qed.
Ltac gp := split; [destruct q; good4|split; [destruct q; good4|destruct q; dvc]].
Lemma hub_p1 : good_pair 4 ch (h_bupcF R r0 r1 ropp h) (h_bupa R r0 r1 h).
Proof. gp. Qed.
Lemma hub_p2 : good_pair 4 ch (h_bupaF R r0 r1 ropp h) (h_bupc R r0 r1 h).
Proof. gp. Qed.
Lemma hub_p3 : good_pair 4 ch (h_bdnc R r0 r1 h) (h_Fbdna R r0 r1 ropp h).
Proof. gp. Qed.
Lemma hub_p4 : good_pair 4 ch (h_bdna R r0 r1 h) (h_Fbdnc R r0 r1 ropp h).
Proof. gp. Qed.
Lemma hub_pz : good_pair 4 ch (h_sz R r0 half ropp h) (h_sz R r0 half ropp h).
Proof. gp. Qed.
Lemma hub_pp : good_pair 4 ch (h_sp R r0 r1 h) (h_sm R r0 r1 h).
Proof. gp. Qed.
Lemma hub_pm : good_pair 4 ch (h_sm R r0 r1 h) (h_sp R r0 r1 h).
Proof. gp. Qed.
Lemma hub_id_elem x x' : x < 4 -> x' < 4 -> elem (h_id R r0 r1 h) x x' = if x =? x' then r1 else r0.
Proof. intros HX HY. unfold h_id. rewrite elem_ten. destruct q; destruct x as [|[|[|[|x]]]]; destruct x' as [|[|[|[|y]]]]; try lia; reflexivity. Qed.
Lemma hub_f_elem x x' : x < 4 -> x' < 4 -> elem (h_f R r0 r1 ropp h) x x' = if x =? x' then sgn (odd_occ up dn x) else r0.
Proof. intros HX HY. unfold h_f. rewrite elem_ten. destruct q; destruct x as [|[|[|[|x]]]]; destruct x' as [|[|[|[|y]]]]; try lia; reflexivity. Qed.
Lemma hub_local x y x' y' P t : x < 4 -> y < 4 -> x' < 4 -> y' < 4 ->
  radd (rmul (ropp t) (rmul (rmul (elem (h_bupcF R r0 r1 ropp h) x x') (elem (h_bupa R r0 r1 h) y y')) (sgn P)))
 (radd (rmul t (rmul (rmul (elem (h_bupaF R r0 r1 ropp h) x x') (elem (h_bupc R r0 r1 h) y y')) (sgn P)))
 (radd (rmul (ropp t) (rmul (rmul (elem (h_bdnc R r0 r1 h) x x') (elem (h_Fbdna R r0 r1 ropp h) y y')) (sgn P)))
 (radd (rmul t (rmul (rmul (elem (h_bdna R r0 r1 h) x x') (elem (h_Fbdnc R r0 r1 ropp h) y y')) (sgn P))) r0))) =
  radd (rmul (ropp t) (radd (leftpart up dn false P x y x' y') (leftpart up dn true P x y x' y')))
       (rmul (ropp t) (radd (rightpart up dn false P x y x' y') (rightpart up dn true P x y x' y'))).
Proof.
  intros HX HY HX' HY'.
  assert (A1 : rmul (rmul (elem (h_bupcF R r0 r1 ropp h) x x') (elem (h_bupa R r0 r1 h) y y')) (sgn P) = leftpart up dn false P x y x' y').
  { change (h_bupcF R r0 r1 ropp h) with (ten 4 (sgns [(h_dn h, h_dbl h, true); (h_emp h, h_up h, false)])). change (h_bupa R r0 r1 h) with (ten 4 (sgns [(h_dbl h, h_dn h, false); (h_up h, h_emp h, false)])).
    rewrite !elem_sgns, leftpart_val. change (sgn P) with (val (Some P)). rewrite !val_mul. f_equal. destruct P, q; revert x y x' y' HX HY HX' HY'; apply check4; vm_compute; reflexivity. }
  assert (A2 : rmul (rmul (elem (h_bupaF R r0 r1 ropp h) x x') (elem (h_bupc R r0 r1 h) y y')) (sgn P) = ropp (rightpart up dn false P x y x' y')).
  { change (h_bupaF R r0 r1 ropp h) with (ten 4 (sgns [(h_dbl h, h_dn h, false); (h_up h, h_emp h, true)])). change (h_bupc R r0 r1 h) with (ten 4 (sgns [(h_dn h, h_dbl h, false); (h_emp h, h_up h, false)])).
    rewrite !elem_sgns, rightpart_val. change (sgn P) with (val (Some P)). rewrite !val_mul, val_opp. f_equal. clear A1. destruct P, q; revert x y x' y' HX HY HX' HY'; apply check4; vm_compute; reflexivity. }
  assert (A3 : rmul (rmul (elem (h_bdnc R r0 r1 h) x x') (elem (h_Fbdna R r0 r1 ropp h) y y')) (sgn P) = leftpart up dn true P x y x' y').
  { change (h_bdnc R r0 r1 h) with (ten 4 (sgns [(h_up h, h_dbl h, false); (h_emp h, h_dn h, false)])). change (h_Fbdna R r0 r1 ropp h) with (ten 4 (sgns [(h_dbl h, h_up h, true); (h_dn h, h_emp h, false)])).
    rewrite !elem_sgns, leftpart_val. change (sgn P) with (val (Some P)). rewrite !val_mul. f_equal. clear A1 A2. destruct P, q; revert x y x' y' HX HY HX' HY'; apply check4; vm_compute; reflexivity. }
  assert (A4 : rmul (rmul (elem (h_bdna R r0 r1 h) x x') (elem (h_Fbdnc R r0 r1 ropp h) y y')) (sgn P) = ropp (rightpart up dn true P x y x' y')).
  { change (h_bdna R r0 r1 h) with (ten 4 (sgns [(h_dbl h, h_up h, false); (h_dn h, h_emp h, false)])). change (h_Fbdnc R r0 r1 ropp h) with (ten 4 (sgns [(h_up h, h_dbl h, false); (h_emp h, h_dn h, true)])).
    rewrite !elem_sgns, rightpart_val. change (sgn P) with (val (Some P)). rewrite !val_mul, val_opp. f_equal. clear A1 A2 A3. destruct P, q; revert x y x' y' HX HY HX' HY'; apply check4; vm_compute; reflexivity. }
  rewrite A1, A2, A3, A4. ring.
Qed.
Variable N : nat.
Notation sites := (repeat 0 N). Notation idops := (repeat (h_id R r0 r1 h) N).
Notation legal := (legal R r0 reqb small sites idops (fun _ => 4) (Z * Z) q00 zsub2 (div_of ch) (blk ch)).
Notation total := (total R r0 r1 rmul reqb small sites radd).
Definition hub_ops (i j : nat) : list (nat -> lop) :=
  let s1 := Nat.min i j in let s2 := Nat.max i j in
  [strop R N (h_id R r0 r1 h) (h_bupcF R r0 r1 ropp h) s1 (h_bupa R r0 r1 h) s2 (h_f R r0 r1 ropp h);
   strop R N (h_id R r0 r1 h) (h_bupaF R r0 r1 ropp h) s1 (h_bupc R r0 r1 h) s2 (h_f R r0 r1 ropp h);
   strop R N (h_id R r0 r1 h) (h_bdnc R r0 r1 h) s1 (h_Fbdna R r0 r1 ropp h) s2 (h_f R r0 r1 ropp h);
   strop R N (h_id R r0 r1 h) (h_bdna R r0 r1 h) s1 (h_Fbdnc R r0 r1 ropp h) s2 (h_f R r0 r1 ropp h)].
Notation hub_hop := (hub_hop R r0 r1 ropp h).
Lemma hub_legal t i j : i <> j -> i < N -> j < N -> legal (hub_hop t i j) (hub_ops i j).
Proof.
  intros NE HI HJ. assert (A : Nat.min i j < Nat.max i j) by lia. assert (B : Nat.max i j < N) by lia. assert (IG := hub_id_good). assert (ID := hub_id_div). assert (FG := hub_f_good). assert (FD := hub_f_div).
  unfold Ops.hub_hop, hub_ops, MpoRunSpec.legal. cbv zeta.
  repeat (apply Forall2_cons; [split; [apply strop_means; auto; reflexivity|intros _; apply strop_physical; auto; first [apply hub_p1|apply hub_p2|apply hub_p3|apply hub_p4]]|]). constructor.
Qed.
Lemma hopping_sym up0 dn0 s s' t i j : hopping_elem R r0 r1 radd rmul ropp up0 dn0 N s s' t t i j = hopping_elem R r0 r1 radd rmul ropp up0 dn0 N s s' t t j i.
Proof. unfold hopping_elem. ring. Qed.
Lemma all_but_split (b : bool) (a1 a2 c1 c2 t t' : R) :
  radd (rmul (ropp t) (radd (if b then a1 else r0) (if b then a2 else r0))) (rmul (ropp t') (radd (if b then c1 else r0) (if b then c2 else r0))) =
  if b then radd (rmul (ropp t) (radd a1 a2)) (rmul (ropp t') (radd c1 c2)) else r0.
Proof. destruct b; ring. Qed.
Lemma hub_total t i j s s' : i <> j -> i < N -> j < N -> (forall k, k < N -> s k < 4 /\ s' k < 4) ->
  total (hub_hop t i j) (hub_ops i j) s s' = if counted t then hopping_elem R r0 r1 radd rmul ropp up dn N s s' t t i j else r0.
Proof.
  intros NE HI HJ HS. unfold Ops.hub_hop, hub_ops. cbn [MpoRunSpec.total acoef]. unfold acounted. cbn [acoef]. fold (counted t). fold (kept R r0 reqb small (ropp t)). rewrite counted_opp.
  destruct (counted t); [|ring].
  assert (X : hopping_elem R r0 r1 radd rmul ropp up dn N s s' t t i j = hopping_elem R r0 r1 radd rmul ropp up dn N s s' t t (Nat.min i j) (Nat.max i j)).
  { destruct (Nat.lt_ge_cases i j); [rewrite Nat.min_l, Nat.max_r by lia; auto|rewrite Nat.min_r, Nat.max_l by lia; apply hopping_sym]. }
  rewrite X. assert (A : Nat.min i j < Nat.max i j) by lia. assert (B : Nat.max i j < N) by lia. clear X. set (a := Nat.min i j) in *. set (b := Nat.max i j) in *. clearbody a b.
  rewrite !(string_total R r0 r1 radd rmul rsub ropp Rth N (h_id R r0 r1 h) _ _ a _ b (h_f R r0 r1 ropp h) (odd_occ up dn) s s') by (auto; intros k Hk; destruct (HS k Hk); auto using hub_id_elem, hub_f_elem).
  unfold hopping_elem, hop_elem.
  rewrite !(hop_to_left R r0 r1 ropp up dn 4 hub_inj N a b _ s s') by auto.
  rewrite !(hop_to_right R r0 r1 ropp up dn 4 hub_inj N a b _ s s') by auto.
  rewrite all_but_split. destruct (all_but N a b s s'); [|ring]. apply hub_local; apply HS; lia.
Qed.
(** any list of hopping terms *)
Notation hops_calls := (hub_hops R r0 r1 ropp h).
Notation hops_ok := (bonds_ok R N).
Notation hops_elem := (hoppings R r0 r1 radd rmul ropp reqb small (fun t => t) N).
Lemma hops_legal l : hops_ok l -> legal (hops_calls l) (flat_map (fun x : R * nat * nat => let '(_, i, j) := x in hub_ops i j) l).
Proof.
  induction 1 as [|[[t i] j] l (A & B & C) H IH]; cbn [hub_hops flat_map]; [constructor|]. apply legal_app; auto. apply hub_legal; auto.
Qed.
Lemma hops_total l s s' : hops_ok l -> (forall k, k < N -> s k < 4 /\ s' k < 4) ->
  total (hops_calls l) (flat_map (fun x : R * nat * nat => let '(_, i, j) := x in hub_ops i j) l) s s' = hops_elem up dn s s' l.
Proof.
  intros H HS. induction H as [|[[t i] j] l (A & B & C) H IH]; cbn [hub_hops flat_map hoppings]; [auto|].
  rewrite (total_app R r0 r1 radd rmul rsub ropp Rth reqb small N) by reflexivity. rewrite hub_total by auto. f_equal. exact IH.
Qed.
End Hubbard.

Lemma hub_mpo q N l : bonds_ok R N l -> existsb (fun x : R * nat * nat => counted (fst (fst x))) l = true ->
  forall dbg, exists g, MpoRunSpec.run R r0 r1 ropp reqb isneg small dbg (repeat 0 N) (repeat (h_id R r0 r1 (hub_site q)) N) (hub_hops R r0 r1 ropp (hub_site q) l) = Ok g /\
  forall dbg' compress, exists ts, gen_mpo R r0 radd rmul (Z * Z) zsub2 (fun a b => (fst a =? fst b)%Z && (snd a =? snd b)%Z) (div_of (hub_charge q)) dbg' compress q00 g = Ok ts /\
  forall s s', (forall k, k < N -> s k < 4 /\ s' k < 4) ->
    mpo_amp R r0 r1 radd rmul reqb (Z * Z) ts s s' = hoppings R r0 r1 radd rmul ropp reqb small (fun t => t) N (one_of (h_dbl (hub_site q)) (h_up (hub_site q))) (one_of (h_dbl (hub_site q)) (h_dn (hub_site q))) s s' l.
Proof.
  intros HO HC dbg.
  destruct (mpo_of_calls R r0 r1 radd rmul rsub ropp Rth reqb isneg small reqb_spec one_zero half half_spec N 4 (hub_charge q) (h_id R r0 r1 (hub_site q)) (hub_id_good q) (hub_id_div q)
    (hub_hops R r0 r1 ropp (hub_site q) l) _ (hops_legal q N l HO)) with (dbg := dbg) as (g & A & B).
  - clear HO. unfold hub_hops. rewrite existsb_exists in HC. destruct HC as ([[t i] j] & HI & HT). apply existsb_exists. exists (ATwo R t (h_bupaF R r0 r1 ropp (hub_site q)) (Nat.min i j) (Some (h_bupc R r0 r1 (hub_site q))) (Nat.max i j) (Some (h_f R r0 r1 ropp (hub_site q))) []).
    split; auto. apply in_flat_map. exists (t, i, j). split; auto. right. left. auto.
  - apply Forall_forall. intros a Ha. apply in_flat_map in Ha. destruct Ha as ([[t i] j] & _ & Ha). repeat destruct Ha as [<-|Ha]; cbn; auto. destruct Ha.
  - exists g. split; auto. intros dbg' compress. destruct (B dbg' compress) as (ts & C & D). exists ts. split; auto. intros s s' HS. rewrite D. apply hops_total; auto.
Qed.

(** ** t-J model *)
Variable conj : R -> R.
Hypothesis conj_conj : forall x, conj (conj x) = x.
Hypothesis conj_opp : forall x, counted (conj x) = counted x.
Ltac good3 := split; [reflexivity|split; [apply ten_square|]]; intros a b H; cbv beta zeta delta [t_sz t_sp t_sm t_id t_f t_bupc t_bdnc t_bupa t_bdna s_sz s_sp s_sm s_id] in H; rewrite (elem_ten R r0) in H;
  destruct a as [|[|[|a]]]; destruct b as [|[|[|b]]]; cbn in H; try (elim H; reflexivity); unfold blk; dvc.
Section TJ.
Variable q : qnt.
Notation h := (tj_site q). Notation ch := (tj_charge q).
Notation up := (Nat.eqb (t_up h)). Notation dn := (Nat.eqb (t_dn h)).
Lemma tj_inj x y : x < 3 -> y < 3 -> up x = up y -> dn x = dn y -> x = y.
Proof. intros HX HY. destruct q; destruct x as [|[|[|x]]]; destruct y as [|[|[|y]]]; try lia; cbn; auto; discriminate. Qed.
Lemma tj_id_good : good_op 3 ch (t_id R r0 r1 h).
Proof. destruct q; good3. Qed.
Lemma tj_id_div : div_of ch (t_id R r0 r1 h) = q00.
Proof. destruct q; dvc. Qed.
Lemma tj_f_good : good_op 3 ch (t_f R r0 r1 ropp h).
Proof. destruct q; good3. Qed.
Lemma tj_f_div : div_of ch (t_f R r0 r1 ropp h) = q00.
Proof. destruct q; dvc. Qed.
Ltac gp := split; [destruct q; good3|split; [destruct q; good3|destruct q; dvc]].
Lemma tj_p1 : good_pair 3 ch (t_bupc R r0 r1 h) (t_bupa R r0 r1 h).
Proof. gp. Qed.
Lemma tj_p2 : good_pair 3 ch (t_bdnc R r0 r1 h) (t_bdna R r0 r1 h).
Proof. gp. Qed.
Lemma tj_p3 : good_pair 3 ch (t_bupa R r0 r1 h) (t_bupc R r0 r1 h).
Proof. gp. Qed.
Lemma tj_p4 : good_pair 3 ch (t_bdna R r0 r1 h) (t_bdnc R r0 r1 h).
Proof. gp. Qed.
Lemma tj_pz : good_pair 3 ch (t_sz R r0 half ropp h) (t_sz R r0 half ropp h).
Proof. gp. Qed.
Lemma tj_pp : good_pair 3 ch (t_sp R r0 r1 h) (t_sm R r0 r1 h).
Proof. gp. Qed.
Lemma tj_pm : good_pair 3 ch (t_sm R r0 r1 h) (t_sp R r0 r1 h).
Proof. gp. Qed.
Lemma tj_id_elem x x' : x < 3 -> x' < 3 -> elem (t_id R r0 r1 h) x x' = if x =? x' then r1 else r0.
Proof. intros HX HY. unfold t_id. rewrite elem_ten. destruct q; destruct x as [|[|[|x]]]; destruct x' as [|[|[|y]]]; try lia; reflexivity. Qed.
Lemma tj_f_elem x x' : x < 3 -> x' < 3 -> elem (t_f R r0 r1 ropp h) x x' = if x =? x' then sgn (odd_occ up dn x) else r0.
Proof. intros HX HY. unfold t_f. rewrite elem_ten. destruct q; destruct x as [|[|[|x]]]; destruct x' as [|[|[|y]]]; try lia; reflexivity. Qed.
Lemma tj_local x y x' y' P t t' : x < 3 -> y < 3 -> x' < 3 -> y' < 3 ->
  radd (rmul (ropp t) (rmul (rmul (elem (t_bupc R r0 r1 h) x x') (elem (t_bupa R r0 r1 h) y y')) (sgn P)))
 (radd (rmul (ropp t) (rmul (rmul (elem (t_bdnc R r0 r1 h) x x') (elem (t_bdna R r0 r1 h) y y')) (sgn P)))
 (radd (rmul (ropp t') (rmul (rmul (elem (t_bupa R r0 r1 h) x x') (elem (t_bupc R r0 r1 h) y y')) (sgn P)))
 (radd (rmul (ropp t') (rmul (rmul (elem (t_bdna R r0 r1 h) x x') (elem (t_bdnc R r0 r1 h) y y')) (sgn P))) r0))) =
  radd (rmul (ropp t) (radd (leftpart up dn false P x y x' y') (leftpart up dn true P x y x' y')))
       (rmul (ropp t') (radd (rightpart up dn false P x y x' y') (rightpart up dn true P x y x' y'))).
Proof.
  intros HX HY HX' HY'.
  assert (A1 : rmul (rmul (elem (t_bupc R r0 r1 h) x x') (elem (t_bupa R r0 r1 h) y y')) (sgn P) = leftpart up dn false P x y x' y').
  { change (t_bupc R r0 r1 h) with (ten 3 (sgns [(t_emp h, t_up h, false)])). change (t_bupa R r0 r1 h) with (ten 3 (sgns [(t_up h, t_emp h, false)])).
    rewrite !elem_sgns, leftpart_val. change (sgn P) with (val (Some P)). rewrite !val_mul. f_equal. destruct P, q; revert x y x' y' HX HY HX' HY'; apply check3; vm_compute; reflexivity. }
  assert (A2 : rmul (rmul (elem (t_bdnc R r0 r1 h) x x') (elem (t_bdna R r0 r1 h) y y')) (sgn P) = leftpart up dn true P x y x' y').
  { change (t_bdnc R r0 r1 h) with (ten 3 (sgns [(t_emp h, t_dn h, false)])). change (t_bdna R r0 r1 h) with (ten 3 (sgns [(t_dn h, t_emp h, false)])).
    rewrite !elem_sgns, leftpart_val. change (sgn P) with (val (Some P)). rewrite !val_mul. f_equal. clear A1. destruct P, q; revert x y x' y' HX HY HX' HY'; apply check3; vm_compute; reflexivity. }
  assert (A3 : rmul (rmul (elem (t_bupa R r0 r1 h) x x') (elem (t_bupc R r0 r1 h) y y')) (sgn P) = rightpart up dn false P x y x' y').
  { change (t_bupc R r0 r1 h) with (ten 3 (sgns [(t_emp h, t_up h, false)])). change (t_bupa R r0 r1 h) with (ten 3 (sgns [(t_up h, t_emp h, false)])).
    rewrite !elem_sgns, rightpart_val. change (sgn P) with (val (Some P)). rewrite !val_mul. f_equal. clear A1 A2. destruct P, q; revert x y x' y' HX HY HX' HY'; apply check3; vm_compute; reflexivity. }
  assert (A4 : rmul (rmul (elem (t_bdna R r0 r1 h) x x') (elem (t_bdnc R r0 r1 h) y y')) (sgn P) = rightpart up dn true P x y x' y').
  { change (t_bdnc R r0 r1 h) with (ten 3 (sgns [(t_emp h, t_dn h, false)])). change (t_bdna R r0 r1 h) with (ten 3 (sgns [(t_dn h, t_emp h, false)])).
    rewrite !elem_sgns, rightpart_val. change (sgn P) with (val (Some P)). rewrite !val_mul. f_equal. clear A1 A2 A3. destruct P, q; revert x y x' y' HX HY HX' HY'; apply check3; vm_compute; reflexivity. }
  rewrite A1, A2, A3, A4. ring.
Qed.
Variable N : nat.
Notation sites := (repeat 0 N). Notation idops := (repeat (t_id R r0 r1 h) N).
Notation legal := (legal R r0 reqb small sites idops (fun _ => 3) (Z * Z) q00 zsub2 (div_of ch) (blk ch)).
Notation total := (total R r0 r1 rmul reqb small sites radd).
Definition tj_ops (i j : nat) : list (nat -> lop) :=
  let s1 := Nat.min i j in let s2 := Nat.max i j in
  [strop R N (t_id R r0 r1 h) (t_bupc R r0 r1 h) s1 (t_bupa R r0 r1 h) s2 (t_f R r0 r1 ropp h);
   strop R N (t_id R r0 r1 h) (t_bdnc R r0 r1 h) s1 (t_bdna R r0 r1 h) s2 (t_f R r0 r1 ropp h);
   strop R N (t_id R r0 r1 h) (t_bupa R r0 r1 h) s1 (t_bupc R r0 r1 h) s2 (t_f R r0 r1 ropp h);
   strop R N (t_id R r0 r1 h) (t_bdna R r0 r1 h) s1 (t_bdnc R r0 r1 h) s2 (t_f R r0 r1 ropp h)].
Notation tj_hop := (tj_hop R r0 r1 ropp conj h).
Lemma tj_total t i j : i <> j -> i < N -> j < N -> exists calls, tj_hop t i j = Ok calls /\ legal calls (tj_ops i j) /\
  length calls = length (tj_ops i j) /\ Forall (fun a => one_site R a = None /\ tail_neg R r0 reqb isneg a = false) calls /\
  (counted t = true -> existsb (acounted R r0 reqb small) calls = true) /\
  forall s s', (forall k, k < N -> s k < 3 /\ s' k < 3) ->
  total calls (tj_ops i j) s s' = if counted t then hopping_elem R r0 r1 radd rmul ropp up dn N s s' t (conj t) i j else r0.
Proof.
  intros NE HI HJ. assert (A : Nat.min i j < Nat.max i j) by lia. assert (B : Nat.max i j < N) by lia.
  set (t0 := if i <? j then t else conj t).
  assert (E : tj_hop t i j = Ok [AInst R (ropp t0) [t_bupc R r0 r1 h; t_bupa R r0 r1 h] [Nat.min i j; Nat.max i j] [t_f R r0 r1 ropp h] [];
      AInst R (ropp t0) [t_bdnc R r0 r1 h; t_bdna R r0 r1 h] [Nat.min i j; Nat.max i j] [t_f R r0 r1 ropp h] [];
      AInst R (ropp (conj t0)) [t_bupa R r0 r1 h; t_bupc R r0 r1 h] [Nat.min i j; Nat.max i j] [t_f R r0 r1 ropp h] [];
      AInst R (ropp (conj t0)) [t_bdna R r0 r1 h; t_bdnc R r0 r1 h] [Nat.min i j; Nat.max i j] [t_f R r0 r1 ropp h] []]).
  { unfold Ops.tj_hop, t0. destruct (Nat.ltb_spec i j); [reflexivity|]. destruct (Nat.ltb_spec j i); [reflexivity|lia]. }
  eexists. split; [exact E|]. split; [|split; [reflexivity|split; [|split]]].
  - assert (IG := tj_id_good). assert (ID := tj_id_div). assert (FG := tj_f_good). assert (FD := tj_f_div). unfold tj_ops, MpoRunSpec.legal. cbv zeta.
    repeat (apply Forall2_cons; [split; [apply strop_means; auto; reflexivity|intros _; apply strop_physical; auto; first [apply tj_p1|apply tj_p2|apply tj_p3|apply tj_p4]]|]). constructor.
  - repeat constructor.
  - intros HC. cbn [existsb]. unfold acounted at 1. cbn [acoef]. fold (counted (ropp t0)). rewrite counted_opp. replace (counted t0) with true; auto. unfold t0. destruct (i <? j); auto. rewrite conj_opp. auto.
  - intros s s' HS. unfold tj_ops. cbn [MpoRunSpec.total acoef]. unfold acounted. cbn [acoef]. fold (counted (ropp t0)). fold (counted (ropp (conj t0))). rewrite !counted_opp, conj_opp.
    replace (counted t0) with (counted t) by (unfold t0; destruct (i <? j); auto; rewrite conj_opp; auto). destruct (counted t); [|ring].
    assert (X : hopping_elem R r0 r1 radd rmul ropp up dn N s s' t (conj t) i j = hopping_elem R r0 r1 radd rmul ropp up dn N s s' t0 (conj t0) (Nat.min i j) (Nat.max i j)).
    { unfold t0. destruct (Nat.ltb_spec i j); [rewrite Nat.min_l, Nat.max_r by lia; auto|rewrite Nat.min_r, Nat.max_l by lia]. rewrite conj_conj. unfold hopping_elem. ring. }
    rewrite X. clear X E. clearbody t0. set (a := Nat.min i j) in *. set (b := Nat.max i j) in *. clearbody a b.
    rewrite !(string_total R r0 r1 radd rmul rsub ropp Rth N (t_id R r0 r1 h) _ _ a _ b (t_f R r0 r1 ropp h) (odd_occ up dn) s s') by (auto; intros k Hk; destruct (HS k Hk); auto using tj_id_elem, tj_f_elem).
    unfold hopping_elem, hop_elem.
    rewrite !(hop_to_left R r0 r1 ropp up dn 3 tj_inj N a b _ s s') by auto.
    rewrite !(hop_to_right R r0 r1 ropp up dn 3 tj_inj N a b _ s s') by auto.
    rewrite all_but_split. destruct (all_but N a b s s'); [|ring]. apply tj_local; apply HS; lia.
Qed.
Notation tj_calls := (tj_hops R r0 r1 ropp conj h).
Notation tj_elem := (hoppings R r0 r1 radd rmul ropp reqb small conj N up dn).
Lemma tj_list l : bonds_ok R N l -> exists calls ops, tj_calls l = Ok calls /\ legal calls ops /\ length calls = length ops /\
  Forall (fun a => one_site R a = None /\ tail_neg R r0 reqb isneg a = false) calls /\
  (existsb (fun x : R * nat * nat => counted (fst (fst x))) l = true -> existsb (acounted R r0 reqb small) calls = true) /\
  forall s s', (forall k, k < N -> s k < 3 /\ s' k < 3) -> total calls ops s s' = tj_elem s s' l.
Proof.
  induction 1 as [|[[t i] j] l (A & B & C) H IH].
  - exists [], []. repeat split; auto; constructor.
  - destruct IH as (calls & ops & I1 & I2 & I3 & I4 & I5 & I6). destruct (tj_total t i j A B C) as (c & E1 & E2 & E3 & E4 & E5 & E6).
    exists (c ++ calls), (tj_ops i j ++ ops). cbn [tj_hops]. rewrite E1. cbn [bind]. rewrite I1. cbn [bind]. split; auto. split; [apply legal_app; auto|]. split; [rewrite !app_length; auto|]. split; [apply Forall_app; auto|]. split.
    + cbn [existsb fst]. intros HC. rewrite existsb_app. apply orb_true_iff in HC. apply orb_true_iff. destruct HC; [left|right]; auto.
    + intros s s' HS. rewrite (total_app R r0 r1 radd rmul rsub ropp Rth reqb small N) by auto. rewrite E6, I6 by auto. reflexivity.
Qed.
End TJ.
Lemma tj_mpo q N l : bonds_ok R N l -> existsb (fun x : R * nat * nat => counted (fst (fst x))) l = true ->
  exists calls, tj_hops R r0 r1 ropp conj (tj_site q) l = Ok calls /\
  forall dbg, exists g, MpoRunSpec.run R r0 r1 ropp reqb isneg small dbg (repeat 0 N) (repeat (t_id R r0 r1 (tj_site q)) N) calls = Ok g /\
  forall dbg' compress, exists ts, gen_mpo R r0 radd rmul (Z * Z) zsub2 (fun a b => (fst a =? fst b)%Z && (snd a =? snd b)%Z) (div_of (tj_charge q)) dbg' compress q00 g = Ok ts /\
  forall s s', (forall k, k < N -> s k < 3 /\ s' k < 3) -> mpo_amp R r0 r1 radd rmul reqb (Z * Z) ts s s' = hoppings R r0 r1 radd rmul ropp reqb small conj N (Nat.eqb (t_up (tj_site q))) (Nat.eqb (t_dn (tj_site q))) s s' l.
Proof.
  intros HO HC. destruct (tj_list q N l HO) as (calls & ops & I1 & I2 & I3 & I4 & I5 & I6). exists calls. split; auto. intros dbg.
  destruct (mpo_of_calls R r0 r1 radd rmul rsub ropp Rth reqb isneg small reqb_spec one_zero half half_spec N 3 (tj_charge q) (t_id R r0 r1 (tj_site q)) (tj_id_good q) (tj_id_div q)
    calls ops I2 (I5 HC) I4 dbg) as (g & A & B).
  exists g. split; auto. intros dbg' compress. destruct (B dbg' compress) as (ts & C & D). exists ts. split; auto. intros s s' HS. rewrite D. apply I6; auto.
Qed.

(** ** Heisenberg coupling *)
Hypothesis im_spec : rmul im im = ropp r1.
Section Heis.
Variables (N d : nat) (charge : nat -> Z * Z) (idop sz sp sm sx sy : lop).
Hypothesis idg : good_op d charge idop.
Hypothesis idd : div_of charge idop = q00.
Hypothesis pz : good_pair d charge sz sz.
Hypothesis pp : good_pair d charge sp sm.
Hypothesis pm : good_pair d charge sm sp.
Hypothesis ide : forall x x', x < d -> x' < d -> elem idop x x' = if x =? x' then r1 else r0.
Hypothesis sxe : forall x x', elem sx x x' = rmul half (radd (elem sp x x') (elem sm x x')).
Hypothesis sye : forall x x', elem sy x x' = rmul (rmul im half) (radd (elem sm x x') (ropp (elem sp x x'))).
Notation pair := (pair_elem R r0 rmul N).
Notation legal := (legal R r0 reqb small (repeat 0 N) (repeat idop N) (fun _ => d) (Z * Z) q00 zsub2 (div_of charge) (blk charge)).
Notation total := (total R r0 r1 rmul reqb small (repeat 0 N) radd).
Lemma pair_sym s s' A B i j : pair s s' A B i j = pair s s' B A j i.
Proof.
  unfold pair_elem. replace (forallb (fun k => (k =? i) || (k =? j) || (s k =? s' k)) (seq 0 N)) with (forallb (fun k => (k =? j) || (k =? i) || (s k =? s' k)) (seq 0 N)).
  - destruct (forallb _ _); auto. ring.
  - apply forallb_ext_seq. intros. rewrite (orb_comm (k =? j)). auto.
Qed.
Lemma xy_pair s s' i j : radd (pair s s' sx sx i j) (pair s s' sy sy i j) = rmul half (radd (pair s s' sp sm i j) (pair s s' sm sp i j)).
Proof.
  unfold pair_elem. destruct (forallb _ _); [|ring]. rewrite !sxe, !sye.
  set (p := elem sp (s i) (s' i)). set (m := elem sm (s i) (s' i)). set (p' := elem sp (s j) (s' j)). set (m' := elem sm (s j) (s' j)).
  transitivity (radd (rmul (rmul half half) (rmul (radd p m) (radd p' m'))) (rmul (rmul im im) (rmul (rmul half half) (rmul (radd m (ropp p)) (radd m' (ropp p')))))); [ring|].
  rewrite im_spec. transitivity (rmul (rmul half (radd half half)) (radd (rmul p m') (rmul m p'))); [ring|]. rewrite half_spec. ring.
Qed.
Notation heis := (heisenberg R half rmul).
Notation heis_calls := (heisenbergs R half rmul sz sp sm).
Notation coupling := (coupling R r0 half radd rmul reqb small N sx sy sz).
Notation couplings := (couplings R r0 half radd rmul reqb small N sx sy sz).
Lemma heis_total J i j : i <> j -> i < N -> j < N -> exists calls ops, (forall dbg, heis dbg sz sp sm J i j = Ok calls) /\ legal calls ops /\ length calls = length ops /\
  Forall (fun a => one_site R a = None /\ tail_neg R r0 reqb isneg a = false) calls /\
  (counted J = true -> existsb (acounted R r0 reqb small) calls = true) /\
  forall s s', (forall k, k < N -> s k < d /\ s' k < d) -> total calls ops s s' = coupling s s' J i j.
Proof.
  intros NE HI HJ. assert (A : Nat.min i j < Nat.max i j) by lia. assert (B : Nat.max i j < N) by lia.
  set (a := Nat.min i j) in *. set (b := Nat.max i j) in *.
  exists [ATerm R J [sz; sz] [a; b]; ATerm R (rmul J half) [sp; sm] [a; b]; ATerm R (rmul J half) [sm; sp] [a; b]].
  exists [pairop R N idop sz a sz b; pairop R N idop sp a sm b; pairop R N idop sm a sp b].
  split; [|split; [|split; [reflexivity|split; [repeat constructor|split]]]].
  - intros dbg. unfold heisenberg. destruct (Nat.eqb_spec i j); [lia|]. destruct dbg; reflexivity.
  - destruct pz as ((Z1 & _) & _). destruct pp as ((Z2 & _) & (Z3 & _) & _). unfold MpoRunSpec.legal.
    repeat (apply Forall2_cons; [split; [apply pairop_means; auto|intros _; apply pairop_physical; auto]|]). constructor.
  - intros HC. cbn [existsb]. unfold acounted at 1. cbn [acoef]. fold (counted J). rewrite HC. auto.
  - intros s s' HS. cbn [MpoRunSpec.total acoef]. unfold acounted. cbn [acoef]. fold (counted J). fold (counted (rmul J half)).
    rewrite !(pair_total R r0 r1 radd rmul rsub ropp Rth N idop _ _ a _ b s s') by (auto; intros k Hk; destruct (HS k Hk); auto).
    unfold OpsSpec.coupling. rewrite xy_pair. assert (X : forall A0 B0, radd (pair s s' A0 B0 i j) (pair s s' B0 A0 i j) = radd (pair s s' A0 B0 a b) (pair s s' B0 A0 a b)).
    { intros A0 B0. unfold a, b. destruct (Nat.lt_ge_cases i j); [rewrite Nat.min_l, Nat.max_r by lia; auto|rewrite Nat.min_r, Nat.max_l by lia]. rewrite (pair_sym s s' A0 B0 i j), (pair_sym s s' B0 A0 i j). ring. }
    assert (Y : pair s s' sz sz i j = pair s s' sz sz a b).
    { unfold a, b. destruct (Nat.lt_ge_cases i j); [rewrite Nat.min_l, Nat.max_r by lia; auto|rewrite Nat.min_r, Nat.max_l by lia]. apply pair_sym. }
    rewrite X, Y. destruct (counted J), (counted (rmul J half)); ring.
Qed.
Lemma heis_list l : bonds_ok R N l -> exists calls ops, (forall dbg, heis_calls dbg l = Ok calls) /\ legal calls ops /\ length calls = length ops /\
  Forall (fun a => one_site R a = None /\ tail_neg R r0 reqb isneg a = false) calls /\
  (existsb (fun x : R * nat * nat => counted (fst (fst x))) l = true -> existsb (acounted R r0 reqb small) calls = true) /\
  forall s s', (forall k, k < N -> s k < d /\ s' k < d) -> total calls ops s s' = couplings s s' l.
Proof.
  induction 1 as [|[[J i] j] l (A & B & C) H IH].
  - exists [], []. repeat split; auto; constructor.
  - destruct IH as (calls & ops & I1 & I2 & I3 & I4 & I5 & I6). destruct (heis_total J i j A B C) as (c & o & E1 & E2 & E3 & E4 & E5 & E6).
    exists (c ++ calls), (o ++ ops). split; [|split; [|split; [|split; [|split]]]].
    + intros dbg. cbn [heisenbergs]. rewrite E1. cbn [bind]. rewrite I1. reflexivity.
    + apply legal_app; auto.
    + rewrite !app_length. auto.
    + apply Forall_app; auto.
    + cbn [existsb fst]. intros HC. rewrite existsb_app. apply orb_true_iff in HC. apply orb_true_iff. destruct HC; [left|right]; auto.
    + intros s s' HS. rewrite (total_app R r0 r1 radd rmul rsub ropp Rth reqb small N) by auto. rewrite E6, I6 by auto. reflexivity.
Qed.
Lemma heis_mpo l : bonds_ok R N l -> existsb (fun x : R * nat * nat => counted (fst (fst x))) l = true ->
  exists calls, (forall dbg, heis_calls dbg l = Ok calls) /\
  forall dbg, exists g, MpoRunSpec.run R r0 r1 ropp reqb isneg small dbg (repeat 0 N) (repeat idop N) calls = Ok g /\
  forall dbg' compress, exists ts, gen_mpo R r0 radd rmul (Z * Z) zsub2 (fun a b => (fst a =? fst b)%Z && (snd a =? snd b)%Z) (div_of charge) dbg' compress q00 g = Ok ts /\
  forall s s', (forall k, k < N -> s k < d /\ s' k < d) -> mpo_amp R r0 r1 radd rmul reqb (Z * Z) ts s s' = couplings s s' l.
Proof.
  intros HO HC. destruct (heis_list l HO) as (calls & ops & I1 & I2 & I3 & I4 & I5 & I6). exists calls. split; auto. intros dbg.
  destruct (mpo_of_calls R r0 r1 radd rmul rsub ropp Rth reqb isneg small reqb_spec one_zero half half_spec N d charge idop idg idd calls ops I2 (I5 HC) I4 dbg) as (g & A & B).
  exists g. split; auto. intros dbg' compress. destruct (B dbg' compress) as (ts & C & D). exists ts. split; auto. intros s s' HS. rewrite D. apply I6; auto.
Qed.
End Heis.
Section Instances.
Ltac elems := intros x x'; cbv beta zeta delta [h_sx h_sy h_sp h_sm t_sp t_sm s_sx s_sy s_sp s_sm]; rewrite ?elem_ten; destruct x as [|[|[|[|x]]]]; destruct x' as [|[|[|[|x']]]]; cbn; try ring; destruct x; try destruct x'; cbn; ring.
Lemma spin_heis q N l : bonds_ok R N l -> existsb (fun x : R * nat * nat => counted (fst (fst x))) l = true ->
  exists calls, (forall dbg, heisenbergs R half rmul (s_sz R r0 half ropp) (s_sp R r0 r1) (s_sm R r0 r1) dbg l = Ok calls) /\
  forall dbg, exists g, MpoRunSpec.run R r0 r1 ropp reqb isneg small dbg (repeat 0 N) (repeat (s_id R r0 r1) N) calls = Ok g /\
  forall dbg' compress, exists ts, gen_mpo R r0 radd rmul (Z * Z) zsub2 (fun a b => (fst a =? fst b)%Z && (snd a =? snd b)%Z) (div_of (spin_charge q)) dbg' compress q00 g = Ok ts /\
  forall s s', (forall k, k < N -> s k < 2 /\ s' k < 2) -> mpo_amp R r0 r1 radd rmul reqb (Z * Z) ts s s' = couplings R r0 half radd rmul reqb small N (s_sx R r0 half) (s_sy R r0 half im rmul ropp) (s_sz R r0 half ropp) s s' l.
Proof.
  apply heis_mpo.
  - destruct q; good3.
  - destruct q; dvc.
  - split; [destruct q; good3|split; [destruct q; good3|destruct q; dvc]].
  - split; [destruct q; good3|split; [destruct q; good3|destruct q; dvc]].
  - split; [destruct q; good3|split; [destruct q; good3|destruct q; dvc]].
  - intros x x' HX HY. unfold s_id. rewrite elem_ten. destruct x as [|[|x]]; destruct x' as [|[|y]]; try lia; reflexivity.
  - elems.
  - elems.
Qed.
Lemma hub_heis q N l : bonds_ok R N l -> existsb (fun x : R * nat * nat => counted (fst (fst x))) l = true ->
  exists calls, (forall dbg, heisenbergs R half rmul (h_sz R r0 half ropp (hub_site q)) (h_sp R r0 r1 (hub_site q)) (h_sm R r0 r1 (hub_site q)) dbg l = Ok calls) /\
  forall dbg, exists g, MpoRunSpec.run R r0 r1 ropp reqb isneg small dbg (repeat 0 N) (repeat (h_id R r0 r1 (hub_site q)) N) calls = Ok g /\
  forall dbg' compress, exists ts, gen_mpo R r0 radd rmul (Z * Z) zsub2 (fun a b => (fst a =? fst b)%Z && (snd a =? snd b)%Z) (div_of (hub_charge q)) dbg' compress q00 g = Ok ts /\
  forall s s', (forall k, k < N -> s k < 4 /\ s' k < 4) -> mpo_amp R r0 r1 radd rmul reqb (Z * Z) ts s s' =
    couplings R r0 half radd rmul reqb small N (h_sx R r0 half (hub_site q)) (h_sy R r0 half im rmul ropp (hub_site q)) (h_sz R r0 half ropp (hub_site q)) s s' l.
Proof.
  apply heis_mpo; [apply hub_id_good|apply hub_id_div|apply hub_pz|apply hub_pp|apply hub_pm|apply hub_id_elem| |].
  - destruct q; elems.
  - destruct q; elems.
Qed.
Lemma tj_heis q N l : bonds_ok R N l -> existsb (fun x : R * nat * nat => counted (fst (fst x))) l = true ->
  exists calls, (forall dbg, heisenbergs R half rmul (t_sz R r0 half ropp (tj_site q)) (t_sp R r0 r1 (tj_site q)) (t_sm R r0 r1 (tj_site q)) dbg l = Ok calls) /\
  forall dbg, exists g, MpoRunSpec.run R r0 r1 ropp reqb isneg small dbg (repeat 0 N) (repeat (t_id R r0 r1 (tj_site q)) N) calls = Ok g /\
  forall dbg' compress, exists ts, gen_mpo R r0 radd rmul (Z * Z) zsub2 (fun a b => (fst a =? fst b)%Z && (snd a =? snd b)%Z) (div_of (tj_charge q)) dbg' compress q00 g = Ok ts /\
  forall s s', (forall k, k < N -> s k < 3 /\ s' k < 3) -> mpo_amp R r0 r1 radd rmul reqb (Z * Z) ts s s' =
    couplings R r0 half radd rmul reqb small N (tj_sx R r0 half) (tj_sy R r0 half im rmul ropp) (t_sz R r0 half ropp (tj_site q)) s s' l.
Proof.
  apply heis_mpo; [apply tj_id_good|apply tj_id_div|apply tj_pz|apply tj_pp|apply tj_pm|apply tj_id_elem| |].
  - elems.
  - elems.
Qed.
End Instances.
End Models.
