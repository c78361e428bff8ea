(** Measurements.  C50 (from disk), C51 (in memory). *)
From Coq Require Import List Arith Lia Bool ZArith Ring.
From Verif Require Import Base FiniteMps FmpsSpec FmpsFacts FmpsInst EffHamSpec FinMpoSpec Measure MeasureSpec MeasureChain MeasureMem MeasureDisk.
Import ListNotations.
Local Open Scope nat_scope.

Section Props.
Variables (R : Type) (r0 r1 : R) (radd rmul rsub : R -> R -> R) (ropp : R -> R).
Variable Rth : ring_theory r0 r1 radd rmul rsub ropp (@eq R).
Variable conj : R -> R.
Hypothesis conj_0 : conj r0 = r0.
Hypothesis conj_1 : conj r1 = r1.
Hypothesis conj_add : forall a b, conj (radd a b) = radd (conj a) (conj b).
Hypothesis conj_mul : forall a b, conj (rmul a b) = rmul (conj a) (conj b).
(** tensors that compare equal are equal; decompositions are exact *)
Variable op_eqb : lop R -> lop R -> bool.
Hypothesis op_eqb_sound : forall a b, op_eqb a b = true -> odim a = odim b /\ forall s s', s < odim b -> s' < odim b -> oe a s s' = oe b s s'.
Variable qr : ten R -> ten R * mat2 R.
Variable svd1 : ten R -> mat2 R * ten R * list R.
Hypothesis QR : qr_exact R r0 r1 radd rmul conj qr.
Hypothesis SVD : svd_exact R r0 r1 radd rmul conj svd1.
Variables (A : list (ten R)) (ids : list (lop R)).
Hypothesis HI : identities R r0 r1 A ids.
Notation N := (length A).
Notation expect := (expect R r0 r1 radd rmul conj).
Notation fits_all := (fits_all R A).
Notation placed := (placed R ids).
Notation string := (string R ids).
Notation at_sites := (at_sites R r0 r1 radd rmul conj A ids).

(** ** C50 *)
Section FromDisk.
Variable disk : nat -> option (ten R).
Hypothesis HA : stored_at_0 R r0 r1 radd rmul conj disk A.
(** one operator on every site *)
Theorem C50_one_site dbg o st : no_tensors R st N -> 0 < N -> fits_all o ->
  exists st', one_site_disk R r0 radd rmul conj qr disk dbg o st = Ok (st', at_sites (seq 0 N) o) /\ no_tensors R st' N.
Proof. exact (one_site_disk_ok R r0 r1 radd rmul rsub ropp Rth conj conj_0 conj_1 conj_add conj_mul qr QR disk A ids HA HI dbg o st). Qed.
(** several operators on a list of sites *)
Theorem C50_listed_sites dbg ops sites st : no_tensors R st N -> sites <> [] -> nondecreasing sites -> (forall s, In s sites -> s < N) -> (forall o, In o ops -> fits_all o) ->
  exists st', one_sites_disk R r0 radd rmul conj qr disk dbg ops sites st = Ok (st', map (at_sites sites) ops) /\ no_tensors R st' N.
Proof.
  intros H1 H2 H3 H4 H5. apply (one_sites_disk_ok R r0 r1 radd rmul rsub ropp Rth conj conj_0 conj_1 conj_add conj_mul qr QR disk A ids HA HI dbg ops sites st); auto.
  intros o t Ho. apply H5. auto.
Qed.
Theorem C50_all_sites dbg ops st : no_tensors R st N -> 0 < N -> (forall o, In o ops -> fits_all o) ->
  exists st', all_sites_disk R r0 radd rmul conj qr disk dbg ops st = Ok (st', map (at_sites (seq 0 N)) ops) /\ no_tensors R st' N.
Proof.
  intros H1 H2 H3. apply (all_sites_disk_ok R r0 r1 radd rmul rsub ropp Rth conj conj_0 conj_1 conj_add conj_mul qr QR disk A ids HA HI dbg ops st); auto.
  intros o t Ho. apply H3. auto.
Qed.
(** two-site operators with a fixed first site; [inst] fills the sites between (identities without it) *)
Theorem C50_two_sites dbg o1 o2 s1 site2s inst st : no_tensors R st N -> s1 < N -> fits_all o1 -> fits_all o2 -> match inst with Some o => fits_all o | None => True end ->
  nondecreasing site2s -> (forall s, In s site2s -> s1 < s < N) ->
  exists st' out, two_site_disk R r0 radd rmul conj qr op_eqb ids disk dbg o1 o2 s1 site2s inst st = Ok (st', out) /\ no_tensors R st' N /\
    Forall2 (fun s2 (r : list nat * R) => exists os, placed [s1; s2] [o1; o2] [string inst s1 s2] os /\ r = ([s1; s2], expect A os)) site2s out.
Proof. exact (two_site_disk_ok R r0 r1 radd rmul rsub ropp Rth conj conj_0 conj_1 conj_add conj_mul op_eqb op_eqb_sound qr QR disk A ids HA HI dbg o1 o2 s1 site2s inst st). Qed.
Theorem C50_two_sites_all dbg o1 o2 s1 inst st : no_tensors R st N -> s1 < N -> fits_all o1 -> fits_all o2 -> match inst with Some o => fits_all o | None => True end ->
  exists st' out, two_all_disk R r0 radd rmul conj qr op_eqb ids disk dbg o1 o2 s1 inst st = Ok (st', out) /\ no_tensors R st' N /\
    Forall2 (fun s2 (r : list nat * R) => exists os, placed [s1; s2] [o1; o2] [string inst s1 s2] os /\ r = ([s1; s2], expect A os)) (seq (s1 + 1) (N - (s1 + 1))) out.
Proof. exact (two_all_disk_ok R r0 r1 radd rmul rsub ropp Rth conj conj_0 conj_1 conj_add conj_mul op_eqb op_eqb_sound qr QR disk A ids HA HI dbg o1 o2 s1 inst st). Qed.
(** four-site operators: the values are right, but the sites [left_over] stay in memory (the debug build stops then) *)
Theorem C50_four_sites dbg o0 o1 o2 o3 ref0 ref1 targets inst ins st : no_tensors R st N -> ref0 < ref1 -> targets <> [] ->
  nondecreasing (map fst targets) -> (forall t0 t1, In (t0, t1) targets -> ref1 < t0 /\ t0 < t1 /\ t1 < N) ->
  (match inst with Some o => ins = o | None => nth_error ids 0 = Some ins end) -> fits_all ins -> fits_all o0 -> fits_all o1 -> fits_all o2 -> fits_all o3 ->
  exists st' out,
    four_site_disk R r0 radd rmul conj qr op_eqb ids disk dbg (o0, o1, o2, o3) ref0 ref1 targets inst st = (if dbg && negb (mps_empty R st') then Abort else Ok (st', out)) /\
    Forall2 (fun (tt : nat * nat) (r : list nat * R) => exists os, let (t0, t1) := tt in
      placed [ref0; ref1; t0; t1] [o0; o1; o2; o3] [string (Some ins) ref0 ref1; string None ref1 t0; string (Some ins) t0 t1] os /\
      r = ([ref0; ref1; t0; t1], expect A os)) targets out /\
    (forall i, i < N -> (left_over targets i -> nth_error (tens st') i = Some (nth_error A i)) /\ (~ left_over targets i -> nth_error (tens st') i = Some None)).
Proof. exact (four_site_disk_ok R r0 r1 radd rmul rsub ropp Rth conj conj_0 conj_1 conj_add conj_mul op_eqb op_eqb_sound qr QR disk A ids HA HI dbg o0 o1 o2 o3 ref0 ref1 targets inst ins st). Qed.
(** an empty list of sites or targets is undefined *)
Theorem C50_empty_list_refuted dbg ops o1 o2 o3 o4 ref0 ref1 inst st : no_tensors R st N -> ref0 < ref1 < N -> fits_all o1 -> fits_all o2 -> (match inst with Some o => fits_all o | None => exists o, nth_error ids 0 = Some o /\ fits_all o end) ->
  one_sites_disk R r0 radd rmul conj qr disk dbg ops [] st = Ub /\ four_site_disk R r0 radd rmul conj qr op_eqb ids disk dbg (o1, o2, o3, o4) ref0 ref1 [] inst st = Ub.
Proof.
  intros HS HR F1 F2 HIn. assert (HM := HS). apply (proj2 (mem_none R A st)) in HM. split.
  - unfold one_sites_disk. destruct (load_first R r0 r1 radd rmul conj disk A HA st HM ltac:(lia)) as (st1 & t & E1 & _). rewrite E1. reflexivity.
  - exact (four_site_none R r0 r1 radd rmul rsub ropp Rth conj op_eqb op_eqb_sound qr QR disk A ids HA HI dbg o1 o2 o3 o4 ref0 ref1 inst st HS HR F1 F2 HIn).
Qed.
End FromDisk.

(** ** C51 *)
(** the object holds a chain for the state [A], with truthful flags *)
Definition represents (st : fmps R) : Prop := exists ts, holds R st ts /\ truthful R r0 r1 radd rmul conj st /\ same_state R r0 r1 radd rmul 1 1 A ts.
(** physical operators and strings become one operator per site, each at its own position *)
Theorem C51_expansion dbg phys insts s0 sites : gaps_filled R (s0 :: sites) insts -> length phys = length (s0 :: sites) ->
  exists ops, expand_ops R dbg phys insts = Ok ops /\ s0 + length ops = last_site R (s0 :: sites) insts + 1 /\
    (forall i s p, nth_error (s0 :: sites) i = Some s -> nth_error phys i = Some p -> nth_error ops (s - s0) = Some p) /\
    (forall i s l k o, nth_error (s0 :: sites) i = Some s -> nth_error insts i = Some l -> nth_error l k = Some o -> nth_error ops (s - s0 + 1 + k) = Some o).
Proof.
  intros HG HL. exists (weave R phys insts). destruct (weave_spec R sites phys insts s0 HG HL) as (W1 & W2 & W3 & _). split; [|auto].
  apply expand_ok; [intros ->; discriminate|]. rewrite HL. clear - HG. revert s0 insts HG. induction sites as [|s sites IH]; intros s0 [|l insts] HG.
  - cbn. auto. - destruct insts; [cbn; auto|contradiction]. - contradiction. - destruct HG as [_ HG]. destruct (IH s insts HG) as [E|E]; cbn [length] in *; lia.
Qed.
(** an event determines its operators *)
Theorem C51_operators_exist s0 sites phys insts : gaps_filled R (s0 :: sites) insts -> length phys = length (s0 :: sites) -> last_site R (s0 :: sites) insts < length ids ->
  exists os, placed (s0 :: sites) phys insts os /\ forall os', placed (s0 :: sites) phys insts os' -> os' = os.
Proof. intros HG HL HN. exists (spread R ids s0 (weave R phys insts)). split; [apply placed_spread; auto|]. intros os' H. eapply placed_unique; eauto. apply placed_spread; auto. Qed.
(** on-site operators: every site, in order; the state does not change *)
Theorem C51_one_site dbg o st : represents st -> fits_all o ->
  exists st', one_site_mem R r0 radd rmul conj qr svd1 dbg o st = Ok (st', at_sites (seq 0 N) o) /\ represents st'.
Proof. exact (one_site_mem_ok R r0 r1 radd rmul rsub ropp Rth conj conj_0 conj_1 conj_add conj_mul qr svd1 QR SVD A ids HI dbg o st). Qed.
Theorem C51_one_site_list dbg ops st : represents st -> (forall o, In o ops -> fits_all o) ->
  exists st', one_sites_mem R r0 radd rmul conj qr svd1 dbg ops st = Ok (st', map (at_sites (seq 0 N)) ops) /\ represents st'.
Proof. intros H1 H2. apply (one_sites_mem_ok R r0 r1 radd rmul rsub ropp Rth conj conj_0 conj_1 conj_add conj_mul qr svd1 QR SVD A ids HI dbg ops st); auto. intros o t Ho. apply H2. auto. Qed.
(** multi-site operators with explicit strings *)
Theorem C51_multi_site dbg phys_set inst_set sites_set oss st : represents st -> length oss = length sites_set ->
  (forall i sites os, nth_error sites_set i = Some sites -> nth_error oss i = Some os ->
    exists phys insts, nth_error phys_set i = Some phys /\ nth_error inst_set i = Some insts /\ event R A ids phys insts sites os) ->
  exists st', multi_site_mem R r0 radd rmul conj qr svd1 op_eqb ids dbg phys_set inst_set sites_set st = Ok (st', combine sites_set (map (expect A) oss)) /\ represents st'.
Proof. exact (multi_site_mem_ok R r0 r1 radd rmul rsub ropp Rth conj conj_0 conj_1 conj_add conj_mul op_eqb op_eqb_sound qr svd1 QR SVD A ids HI dbg phys_set inst_set sites_set oss st). Qed.
(** one insertion operator per gap *)
Theorem C51_multi_site_one_op dbg phys_set inst_set sites_set oss st : represents st -> length oss = length sites_set ->
  (forall i sites os, nth_error sites_set i = Some sites -> nth_error oss i = Some os -> exists phys inst, nth_error phys_set i = Some phys /\ nth_error inst_set i = Some inst /\
    length sites = length inst + 1 /\ ascending sites /\ event R A ids phys (gap_strings R sites inst) sites os) ->
  exists st', multi_site_mem1 R r0 radd rmul conj qr svd1 op_eqb ids dbg phys_set inst_set sites_set st = Ok (st', combine sites_set (map (expect A) oss)) /\ represents st'.
Proof. exact (multi_site_mem1_ok R r0 r1 radd rmul rsub ropp Rth conj conj_0 conj_1 conj_add conj_mul op_eqb op_eqb_sound qr svd1 QR SVD A ids HI dbg phys_set inst_set sites_set oss st). Qed.
(** two-site operators *)
Theorem C51_two_site dbg phys insts sites_set oss st : represents st -> length phys = 2 -> length insts = length sites_set -> length oss = length sites_set ->
  (forall i sites ins os, nth_error sites_set i = Some sites -> nth_error insts i = Some ins -> nth_error oss i = Some os -> event R A ids phys [ins] sites os) ->
  exists st', two_site_mem R r0 radd rmul conj qr svd1 op_eqb ids dbg phys insts sites_set st = Ok (st', combine sites_set (map (expect A) oss)) /\ represents st'.
Proof. exact (two_site_mem_ok R r0 r1 radd rmul rsub ropp Rth conj conj_0 conj_1 conj_add conj_mul op_eqb op_eqb_sound qr svd1 QR SVD A ids HI dbg phys insts sites_set oss st). Qed.
Theorem C51_two_site_one_op dbg phys inst sites_set oss st : represents st -> length phys = 2 -> length oss = length sites_set ->
  (forall i sites os, nth_error sites_set i = Some sites -> nth_error oss i = Some os -> length sites = 2 /\ ascending sites /\ event R A ids phys (gap_strings R sites [inst]) sites os) ->
  exists st', two_site_mem1 R r0 radd rmul conj qr svd1 op_eqb ids dbg phys inst sites_set st = Ok (st', combine sites_set (map (expect A) oss)) /\ represents st'.
Proof. exact (two_site_mem1_ok R r0 r1 radd rmul rsub ropp Rth conj conj_0 conj_1 conj_add conj_mul op_eqb op_eqb_sound qr svd1 QR SVD A ids HI dbg phys inst sites_set oss st). Qed.
End Props.

Section Refuted.
Variables (R : Type) (r0 : R) (radd rmul : R -> R -> R) (conj : R -> R) (op_eqb : lop R -> lop R -> bool).
Variable qr : ten R -> ten R * mat2 R.
Variable svd1 : ten R -> mat2 R * ten R * list R.
Variable ids : list (lop R).
(** equal neighbouring sites pass the order check, in both builds: the value measured on s and s + 1 is reported for {s, s} *)
Theorem C51_equal_sites_refuted dbg p q s st :
  multi_site_mem R r0 radd rmul conj qr svd1 op_eqb ids dbg [[p; q]] [[[]]] [[s; s]] st =
  let! x := multi_site_mem R r0 radd rmul conj qr svd1 op_eqb ids dbg [[p; q]] [[[]]] [[s; s + 1]] st in
  Ok (fst x, map (fun r : list nat * R => ([s; s], snd r)) (snd x)).
Proof.
  unfold multi_site_mem, multi_loop. cbn [length for_loop]. unfold vget. cbn [nth_error bind]. change (1 <? length [s; s]) with true. change (1 <? length [s; s + 1]) with true.
  replace (order_kept [s; s]) with true by (unfold order_kept; rewrite Nat.ltb_irrefl; auto).
  replace (order_kept [s; s + 1]) with true by (unfold order_kept; rewrite (proj2 (Nat.ltb_ge (s + 1) s)) by lia; auto).
  replace (assert_ dbg true) with (Ok tt) by (destruct dbg; auto). cbn [bind]. cbn [fst snd]. destruct (centralize R r0 radd rmul qr svd1 dbg (Z.of_nat s) st) as [st'| |]; cbn [bind]; auto.
  unfold multi_avg. destruct (expand_ops R dbg [p; q] [[]]) as [ops| |]; cbn [bind]; auto. unfold vget. cbn [nth_error bind]. destruct (ops_avg R r0 radd rmul conj op_eqb ids dbg st' ops s (s + length ops - 1)) as [a| |]; cbn [bind]; auto.
Qed.
(** the overload with one operator per gap throws instead (when the center can be moved to s) *)
Theorem C51_equal_sites_throws dbg p q o s st st' : centralize R r0 radd rmul qr svd1 dbg (Z.of_nat s) st = Ok st' ->
  multi_site_mem1 R r0 radd rmul conj qr svd1 op_eqb ids dbg [[p; q]] [[o]] [[s; s]] st = Abort.
Proof.
  intros E. unfold multi_site_mem1, multi_loop. cbn [length for_loop]. unfold vget. cbn [nth_error bind]. change (1 <? length [s; s]) with true.
  replace (order_kept [s; s]) with true by (unfold order_kept; rewrite Nat.ltb_irrefl; auto).
  replace (assert_ dbg true) with (Ok tt) by (destruct dbg; auto). cbn [bind]. cbn [fst snd]. rewrite E. cbn [bind]. unfold multi_avg1, fill_ops. cbn [length].
  change (2 =? 1 + 1) with true. replace (assert_ dbg true) with (Ok tt) by (destruct dbg; auto). cbn [bind for_loop Nat.add]. unfold vget. cbn [nth_error bind]. rewrite Nat.leb_refl. reflexivity.
Qed.
End Refuted.

(** ** Concrete cases over Z: three entangled sites with the center at site 0 *)
Definition mz : list (ten Z) :=
  [mkTen 1 2 2 (fun l s r => (1 + Z.of_nat s + 3 * Z.of_nat r)%Z); mkTen 2 2 2 (fun l s r => if (s =? l) && (r =? l) then 1%Z else 0%Z); mkTen 2 2 1 (fun l s r => if s =? l then 1%Z else 0%Z)].
Definition id2 : lop Z := mkLop 2 (fun s s' => if s =? s' then 1%Z else 0%Z).
Definition sz2 : lop Z := mkLop 2 (fun s s' => if s =? s' then (1 - 2 * Z.of_nat s)%Z else 0%Z).
Definition up2 : lop Z := mkLop 2 (fun s s' => if (s =? 0) && (s' =? 1) then 1%Z else 0%Z).
Definition eq2 (a b : lop Z) : bool := (odim a =? 2) && (odim b =? 2) && forallb (fun s => forallb (fun s' => Z.eqb (oe a s s') (oe b s s')) [0; 1]) [0; 1].
Lemma eq2_sound a b : eq2 a b = true -> odim a = odim b /\ forall s s', s < odim b -> s' < odim b -> oe a s s' = oe b s s'.
Proof.
  unfold eq2. rewrite !andb_true_iff, !Nat.eqb_eq. intros [[E1 E2] H]. split; [congruence|]. rewrite E2. rewrite forallb_forall in H. intros s s' Hs Hs'.
  assert (I : forall x, x < 2 -> In x [0; 1]) by (intros [|[|x]] Hx; cbn; auto; lia). specialize (H s (I s Hs)). rewrite forallb_forall in H. apply Z.eqb_eq. auto.
Qed.
Definition mdisk (i : nat) : option (ten Z) := nth_error mz i.
Definition mids : list (lop Z) := [id2; id2; id2].
Lemma m_ids : identities Z 0%Z 1%Z mz mids.
Proof. repeat constructor. Qed.
Lemma m_stored : stored_at_0 Z 0%Z 1%Z Z.add Z.mul zconj mdisk mz.
Proof.
  split; [cbn; auto|]. split; [|auto]. unfold mz. cbn [tl]. repeat constructor.
  - unfold right_canonical. cbn [d0]. intros [|[|i]] [|[|j]] Hi Hj; try lia; vm_compute; reflexivity.
  - unfold right_canonical. cbn [d0]. intros [|[|i]] [|[|j]] Hi Hj; try lia; vm_compute; reflexivity.
Qed.
Definition mst : fmps Z := mkFmps [None; None; None] [NONE; NONE; NONE] (-1)%Z.
Lemma m_empty : no_tensors Z mst 3.
Proof. split; reflexivity. Qed.
Lemma m_fits (f : nat -> nat -> Z) : fits_all Z mz (mkLop 2 f).
Proof. intros t [<-|[<-|[<-|[]]]]; reflexivity. Qed.
Definition values {S} (r : res (S * list (list nat * Z))) : option (list (list nat * Z)) := match r with Ok (_, l) => Some l | _ => None end.
Definition cleaned {T} (r : res (fmps Z * T)) : option bool := match r with Ok (s, _) => Some (mps_empty Z s) | _ => None end.
Example C50_one_site_ex : values (one_site_disk Z 0%Z Z.add Z.mul zconj zqr mdisk true sz2 mst) = Some [([0], (-12)%Z); ([1], (-36)%Z); ([2], (-36)%Z)] /\
  cleaned (one_site_disk Z 0%Z Z.add Z.mul zconj zqr mdisk true sz2 mst) = Some true.
Proof. vm_compute. auto. Qed.
Example C50_one_site_hyps : exists st', one_site_disk Z 0%Z Z.add Z.mul zconj zqr mdisk true sz2 mst = Ok (st', at_sites Z 0%Z 1%Z Z.add Z.mul zconj mz mids (seq 0 3) sz2) /\ no_tensors Z st' 3.
Proof. exact (C50_one_site Z 0%Z 1%Z Z.add Z.mul Z.sub Z.opp Zth zconj eq_refl eq_refl (fun _ _ => eq_refl) (fun _ _ => eq_refl) zqr zqr_exact mz mids m_ids mdisk m_stored true sz2 mst m_empty (le_n_S 0 2 (Nat.le_0_l 2)) (m_fits _)). Qed.
Example C50_two_sites_ex : values (two_site_disk Z 0%Z Z.add Z.mul zconj zqr eq2 mids mdisk true up2 sz2 0 [1; 2] None mst) = Some [([0; 1], (-18)%Z); ([0; 2], (-18)%Z)] /\
  values (two_site_disk Z 0%Z Z.add Z.mul zconj zqr eq2 mids mdisk true sz2 sz2 0 [1; 2] (Some sz2) mst) = Some [([0; 1], (6)%Z); ([0; 2], (-12)%Z)] /\
  cleaned (two_site_disk Z 0%Z Z.add Z.mul zconj zqr eq2 mids mdisk true sz2 sz2 0 [1; 2] (Some sz2) mst) = Some true.
Proof. vm_compute. auto. Qed.
(** unsorted site lists *)
Theorem C50_unsorted_refuted : one_sites_disk Z 0%Z Z.add Z.mul zconj zqr mdisk true [sz2] [1; 0] mst = Ub /\ two_site_disk Z 0%Z Z.add Z.mul zconj zqr eq2 mids mdisk true sz2 sz2 0 [0] None mst = Ub.
Proof. vm_compute. auto. Qed.

(** six sites in a product state: the targets (2, 5), (3, 4) leave site 5 in memory; the debug build stops *)
Definition pz : list (ten Z) := repeat (mkTen 1 2 1 (fun l s r => (1 - Z.of_nat s)%Z)) 6.
Definition pst : fmps Z := mkFmps (repeat None 6) (repeat NONE 6) (-1)%Z.
Lemma p_stored : stored_at_0 Z 0%Z 1%Z Z.add Z.mul zconj (fun i => nth_error pz i) pz.
Proof.
  split; [cbn; repeat split|]. split; [|auto]. unfold pz. cbn [tl repeat].
  assert (H : right_canonical Z 0%Z 1%Z Z.add Z.mul zconj (mkTen 1 2 1 (fun l s r => (1 - Z.of_nat s)%Z))).
  { unfold right_canonical. cbn [d0]. intros [|i] [|j] Hi Hj; try lia. vm_compute. reflexivity. }
  repeat (constructor; auto).
Qed.
Definition four (dbg : bool) (targets : list (nat * nat)) := four_site_disk Z 0%Z Z.add Z.mul zconj zqr eq2 (repeat id2 6) (fun i => nth_error pz i) dbg (sz2, sz2, sz2, sz2) 0 1 targets None pst.
Definition occupied {T} (r : res (fmps Z * T)) : option (list bool) := match r with Ok (s, _) => Some (map (fun p => match p with Some _ => true | None => false end) (tens s)) | _ => None end.
Theorem C50_four_sites_memory_refuted : occupied (four false [(2, 5); (3, 4)]) = Some [false; false; false; false; false; true] /\ four true [(2, 5); (3, 4)] = Abort /\
  occupied (four true [(2, 4); (3, 5)]) = Some [false; false; false; false; false; false] /\ left_over [(2, 5); (3, 4)] 5.
Proof. split; [vm_compute; reflexivity|]. split; [vm_compute; reflexivity|]. split; [vm_compute; reflexivity|]. exists 3, 4, 2, 5. cbn. repeat split; auto; lia. Qed.

(** in memory *)
Definition mst' : fmps Z := mkFmps (map Some mz) [NONE; NONE; NONE] (-1)%Z.
Lemma m_represents : represents Z 0%Z 1%Z Z.add Z.mul zconj mz mst'.
Proof.
  exists mz. split; [split; reflexivity|]. split.
  - intros [|[|[|i]]]; cbn; auto; split; intros; try discriminate; destruct i; discriminate.
  - apply same_refl. cbn. auto.
Qed.
Example C51_event_ex : exists os, event Z mz mids [sz2; sz2] [[up2]] [0; 2] os.
Proof.
  exists [sz2; up2; sz2]. split; [cbn; lia|]. split; [reflexivity|]. split; [cbn; auto|]. split; [cbn; lia|]. split.
  - split; [reflexivity|]. split; [|split].
    + intros [|[|[|i]]] s p Hs Hp; cbn in Hs, Hp; try discriminate; try (injection Hs as <-; injection Hp as <-; reflexivity); destruct i; discriminate.
    + intros [|[|[|i]]] s l [|[|k]] o Hs Hl Ho; cbn in Hs, Hl; try discriminate; injection Hs as <-; injection Hl as <-; cbn in Ho; try discriminate; try (injection Ho as <-; reflexivity); destruct k; discriminate.
    + intros j H1 H2. destruct j as [|[|[|j]]].
      * exfalso. exact (H1 0 0 eq_refl eq_refl). * exfalso. exact (H2 0 0 [up2] 0 eq_refl eq_refl (le_n 1) eq_refl). * exfalso. exact (H1 1 2 eq_refl eq_refl). * destruct j; reflexivity.
  - repeat constructor.
Qed.
Example C51_values_ex : values (multi_site_mem Z 0%Z Z.add Z.mul zconj zqr zsvd eq2 mids true [[sz2; sz2]; [sz2; sz2]] [[[sz2]]; [[]]] [[0; 2]; [1; 2]] mst') = Some [([0; 2], (-12)%Z); ([1; 2], (46)%Z)] /\
  values (multi_site_mem Z 0%Z Z.add Z.mul zconj zqr zsvd eq2 mids true [[sz2; sz2]] [[[]]] [[1; 1]] mst') = Some [([1; 1], (46)%Z)].
Proof. vm_compute. auto. Qed.

Print Assumptions C50_one_site.
Print Assumptions C50_listed_sites.
Print Assumptions C50_all_sites.
Print Assumptions C50_two_sites.
Print Assumptions C50_two_sites_all.
Print Assumptions C50_four_sites.
Print Assumptions C50_empty_list_refuted.
Print Assumptions C50_unsorted_refuted.
Print Assumptions C50_four_sites_memory_refuted.
Print Assumptions C51_expansion.
Print Assumptions C51_operators_exist.
Print Assumptions C51_one_site.
Print Assumptions C51_one_site_list.
Print Assumptions C51_multi_site.
Print Assumptions C51_multi_site_one_op.
Print Assumptions C51_two_site.
Print Assumptions C51_two_site_one_op.
Print Assumptions C51_equal_sites_refuted.
Print Assumptions C51_equal_sites_throws.
