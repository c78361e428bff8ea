(** A QR decomposition by the method of Gram and Schmidt: it moves the center to the left and makes no bond larger. *)
From Coq Require Import List Arith Bool Lia Reals Lra Ring_theory.
From Verif Require Import Base FiniteMps FmpsSpec FmpsFacts EffHam EffHamSpec ChainSpec ChainFacts Cx KrylovInst DmrgUpdate DmrgStep DmrgVarSpec DmrgVarInst DmrgTrunc DmrgTruncSpec.
Import ListNotations.
Local Open Scope nat_scope.

Notation csum_l := (FmpsFacts.sumn_mul_l cx c0 c1 cadd cmul csub copp cx_ring). Notation csum_r := (FmpsFacts.sumn_mul_r cx c0 c1 cadd cmul csub copp cx_ring).
Lemma csum_first : forall n f, csum (S n) f = cadd (f 0) (csum n (fun i => f (S i))).
Proof. induction n as [|n IH]; intros f; [cbn [FmpsSpec.sumn]; ring|]. cbn [FmpsSpec.sumn] in *. rewrite IH. ring. Qed.
Section Gs.
Variable m : nat.
Notation vec := (nat -> cx).
Definition vip (f g : vec) : cx := csum m (fun k => cmul (cconj (f k)) (g k)).
Definition vcomb (qs : list vec) (r : vec) : vec := fun k => fold_right (fun q s => cadd (cmul (vip q r) (q k)) s) c0 qs.
Definition resid (qs : list vec) (r : vec) : vec := fun k => csub (r k) (vcomb qs r k).
Definition len2 (r : vec) : real := fst (vip r r).
Definition gs_add (qs : list vec) (r : vec) : list vec :=
  if Req_EM_T (len2 (resid qs r)) 0 then qs else (fun k => cmul (cre (/ sqrt (len2 (resid qs r)))) (resid qs r k)) :: qs.
Definition gs (rs : list vec) : list vec := fold_left gs_add rs [].
Fixpoint onb (qs : list vec) : Prop := match qs with [] => True | u :: l => vip u u = c1 /\ (forall q, In q l -> vip q u = c0) /\ onb l end.
Lemma vip_conj : forall f g, cconj (vip f g) = vip g f.
Proof. intros. unfold vip. rewrite (conj_sumn cx c0 cadd cconj cconj0 cconj_add). apply csum_e. intros. rewrite cconj_mul, cconj_conj. ring. Qed.
Lemma vip_comb : forall f qs r, vip f (vcomb qs r) = fold_right (fun q s => cadd (cmul (vip q r) (vip f q)) s) c0 qs.
Proof.
  intros f qs r. unfold vcomb. induction qs as [|q qs IH]; cbn [fold_right].
  - unfold vip. transitivity (cmul (csum m (fun k => cconj (f k))) c0); [symmetry; apply csum_r|ring].
  - rewrite <- IH. unfold vip at 1. rewrite (csum_e m _ (fun k => cadd (cmul (vip q r) (cmul (cconj (f k)) (q k))) (cmul c1 (cmul (cconj (f k)) (fold_right (fun q s => cadd (cmul (vip q r) (q k)) s) c0 qs))))) by (intros; ring).
    rewrite csum_lin. unfold vip. ring.
Qed.
Lemma vip_sub : forall f g h, vip f (fun k => csub (g k) (h k)) = csub (vip f g) (vip f h).
Proof. intros. unfold vip. rewrite (csum_e m _ (fun k => cadd (cmul c1 (cmul (cconj (f k)) (g k))) (cmul (copp c1) (cmul (cconj (f k)) (h k))))) by (intros; ring). rewrite csum_lin. ring. Qed.
Lemma comb_in : forall qs r q, onb qs -> In q qs -> vip q (vcomb qs r) = vip q r.
Proof.
  intros qs r q HB HI. rewrite vip_comb. revert HB HI. induction qs as [|u l IH]; intros HB HI; [destruct HI|]. destruct HB as [B1 [B2 B3]]. cbn [fold_right].
  assert (Z : (forall q, In q l -> vip u q = c0)) by (intros q' I; rewrite <- vip_conj, B2, cconj0 by exact I; reflexivity).
  destruct HI as [<-|HI].
  - rewrite B1. assert (E : fold_right (fun q s => cadd (cmul (vip q r) (vip u q)) s) c0 l = c0).
    { clear - Z. induction l as [|a l IH]; cbn [fold_right]; [reflexivity|]. rewrite IH by (intros; apply Z; right; assumption). rewrite (Z a) by (left; reflexivity). ring. }
    rewrite E. ring.
  - rewrite IH by assumption. rewrite B2 by exact HI. ring.
Qed.
Lemma resid_orth : forall qs r q, onb qs -> In q qs -> vip q (resid qs r) = c0.
Proof. intros qs r q HB HI. unfold resid. rewrite vip_sub, comb_in by assumption. ring. Qed.
Lemma len2_pos : forall r, (0 <= len2 r)%R /\ vip r r = cre (len2 r) /\ (len2 r = 0%R -> forall k, k < m -> r k = c0).
Proof.
  intros r. unfold len2. destruct (csum_pos m (fun k => cmul (cconj (r k)) (r k))) as [P1 P2].
  { intros i _. replace (cmul (cconj (r i)) (r i)) with (cmul (r i) (cconj (r i))) by ring. apply sq_pos. }
  split; [exact P1|]. split.
  - pose proof (vip_conj r r) as C. destruct (vip r r) as [x y]. unfold cconj in C. cbn [fst snd] in C. injection C as C. unfold cre. cbn [fst]. f_equal. lra.
  - intros E k Hk. specialize (P2 E k Hk). replace (cmul (cconj (r k)) (r k)) with (cmul (r k) (cconj (r k))) in P2 by ring. exact (proj2 (sq_pos (r k)) P2).
Qed.
Definition made (qs : list vec) (r : vec) : Prop := forall k, k < m -> r k = vcomb qs r k.
Lemma resid_self : forall qs r, onb qs -> vip (resid qs r) r = cre (len2 (resid qs r)).
Proof.
  intros qs r HB. destruct (len2_pos (resid qs r)) as [_ [E _]]. rewrite <- E. unfold resid at 3. rewrite vip_sub. replace (vip (resid qs r) (vcomb qs r)) with c0; [ring|].
  rewrite vip_comb. symmetry. pose proof (fun q => resid_orth qs r q HB) as Z. revert Z. generalize (resid qs r) as v. clear. intros v. induction qs as [|q l IH]; intros Z; cbn [fold_right]; [reflexivity|].
  rewrite IH by (intros; apply Z; right; assumption). rewrite <- (vip_conj q v), (Z q) by (left; reflexivity). rewrite cconj0. ring.
Qed.
Lemma gs_add_ok : forall qs r, onb qs -> onb (gs_add qs r) /\ made (gs_add qs r) r /\ (forall r', made qs r' -> made (gs_add qs r) r').
Proof.
  intros qs r HB. unfold gs_add. destruct (len2_pos (resid qs r)) as [P1 [P2 P3]]. pose proof (resid_self qs r HB) as RS. pose proof (fun q => resid_orth qs r q HB) as OR.
  destruct (Req_EM_T (len2 (resid qs r)) 0) as [E|E].
  - split; [exact HB|]. split; [|auto]. intros k Hk. specialize (P3 E k Hk). unfold resid in P3. transitivity (cadd (csub (r k) (vcomb qs r k)) (vcomb qs r k)); [ring|]. rewrite P3. ring.
  - set (n2 := len2 (resid qs r)) in *. set (c := (/ sqrt n2)%R). assert (CC : (c * c * n2 = 1)%R). { unfold c. assert (S : (0 < sqrt n2)%R) by (apply sqrt_lt_R0; lra). rewrite <- (sqrt_sqrt n2) at 3 by lra. field. lra. }
    assert (SC : forall f, vip (fun k => cmul (cre c) (resid qs r k)) f = cmul (cre c) (vip (resid qs r) f)).
    { intros f. unfold vip. rewrite csum_l. apply csum_e. intros. rewrite cconj_mul. replace (cconj (cre c)) with (cre c) by (unfold cconj, cre; cbn [fst snd]; f_equal; ring). ring. }
    assert (SQ : forall q, vip q (fun k => cmul (cre c) (resid qs r k)) = cmul (cre c) (vip q (resid qs r))) by (intros q; unfold vip; rewrite csum_l; apply csum_e; intros; ring).
    assert (C1 : cmul (cre c) (cmul (cre c) (cre n2)) = c1) by (unfold cmul, cre, c1; cbn [fst snd]; f_equal; [rewrite <- CC; ring|ring]).
    split; [|split].
    + cbn [onb]. split; [rewrite SC, SQ, P2; exact C1|]. split; [|exact HB]. intros q Hq. rewrite SQ, OR by exact Hq. ring.
    + intros k Hk. unfold vcomb. cbn [fold_right]. rewrite SC, RS. change (fold_right _ c0 qs) with (vcomb qs r k).
      transitivity (cadd (cmul (cmul (cre c) (cmul (cre c) (cre n2))) (resid qs r k)) (vcomb qs r k)); [rewrite C1; unfold resid; ring|ring].
    + intros r' M k Hk. unfold vcomb. cbn [fold_right]. change (fold_right _ c0 qs) with (vcomb qs r' k). rewrite <- (M k Hk). rewrite SC.
      replace (vip (resid qs r) r') with c0; [ring|]. symmetry. transitivity (vip (resid qs r) (vcomb qs r')); [unfold vip; apply csum_e; intros; rewrite <- (M i) by assumption; reflexivity|].
      rewrite vip_comb. clear - OR. revert OR. generalize (resid qs r). intros v Z. induction qs as [|q l IH]; cbn [fold_right]; [reflexivity|]. rewrite IH by (intros; apply Z; right; assumption). rewrite <- (vip_conj q v), (Z q) by (left; reflexivity). rewrite cconj0. ring.
Qed.
Lemma gs_len : forall rs, length (gs rs) <= length rs.
Proof.
  intros rs. unfold gs. assert (G : forall rs qs, length (fold_left gs_add rs qs) <= length qs + length rs); [|apply (G rs [])]. clear.
  induction rs as [|r rs IH]; intros qs; cbn [fold_left length]; [lia|]. specialize (IH (gs_add qs r)). assert (length (gs_add qs r) <= S (length qs)) by (unfold gs_add; destruct (Req_EM_T _ 0); cbn [length]; lia). lia.
Qed.
Lemma gs_ok : forall rs, onb (gs rs) /\ forall r, In r rs -> made (gs rs) r.
Proof.
  intros rs. unfold gs. assert (G : forall rs qs, onb qs -> onb (fold_left gs_add rs qs) /\ forall r, In r rs \/ made qs r -> made (fold_left gs_add rs qs) r).
  { clear. induction rs as [|r rs IH]; intros qs HB; cbn [fold_left]; [split; [exact HB|intros r [[]|H]; exact H]|]. destruct (gs_add_ok qs r HB) as [A1 [A2 A3]]. destruct (IH _ A1) as [B1 B2]. split; [exact B1|]. intros r' [[<-|H]|H]; apply B2; auto. }
  destruct (G rs [] I) as [A B]. split; [exact A|]. auto.
Qed.
Lemma onb_nth : forall qs, onb qs -> forall i j, i < length qs -> j < length qs -> vip (nth i qs (fun _ => c0)) (nth j qs (fun _ => c0)) = cdelta i j.
Proof.
  induction qs as [|u l IH]; intros HB i j Hi Hj; cbn [length] in *; [lia|]. destruct HB as [B1 [B2 B3]]. destruct i as [|i], j as [|j]; cbn [nth].
  - exact B1.
  - rewrite <- vip_conj, B2, cconj0 by (apply nth_In; lia). reflexivity.
  - rewrite B2 by (apply nth_In; lia). reflexivity.
  - rewrite IH by (auto; lia). reflexivity.
Qed.
Lemma comb_sum : forall qs r k, vcomb qs r k = csum (length qs) (fun i => cmul (vip (nth i qs (fun _ => c0)) r) (nth i qs (fun _ => c0) k)).
Proof. intros qs r k. unfold vcomb. induction qs as [|q l IH]; [reflexivity|]. cbn [length]. rewrite csum_first. cbn [nth fold_right]. rewrite IH. reflexivity. Qed.
End Gs.

(** the row j of a tensor: legs 1 and 2 together *)
Definition t_row (b : cten) (j : nat) : nat -> cx := fun k => el b j (k mod d1 b) (k / d1 b).
Definition qleft (a b : cten) : cten * cten :=
  if d1 b * d2 b <=? d0 b then xleft a b else
  let m := d2 b * d1 b in let qs := gs m (map (t_row b) (seq 0 (d0 b))) in let q := fun k => nth k qs (fun _ => c0) in
  (mkTen (d0 a) (d1 a) (length qs) (fun x s k => csum (d2 a) (fun j => cmul (el a x s j) (vip m (q k) (t_row b j)))),
   mkTen (length qs) (d1 b) (d2 b) (fun k s y => q k (y * d1 b + s))).
Lemma qleft_thin : thin_left qleft.
Proof.
  intros a b. unfold qleft. destruct (Nat.leb_spec (d1 b * d2 b) (d0 b)) as [H|H]; cbn [xleft mergeR snd d0]; [nia|]. pose proof (gs_len (d2 b * d1 b) (map (t_row b) (seq 0 (d0 b)))) as L. rewrite map_length, seq_length in L. lia.
Qed.
Lemma qleft_ok : moves_left cx c0 c1 cadd cmul cconj qleft.
Proof.
  intros a b L. unfold qleft. destruct (d1 b * d2 b <=? d0 b); [exact (xleft_ok a b L)|]. cbv zeta. set (m := d2 b * d1 b). set (qs := gs m _). set (q := fun k => nth k qs (fun _ => c0)).
  destruct (gs_ok m (map (t_row b) (seq 0 (d0 b)))) as [G1 G2]. fold qs in G1, G2.
  exists (fun j k => vip m (q k) (t_row b j)). do 5 (split; [reflexivity|]). split; [|split].
  - intros k k' Hk Hk'. cbn [d0 d1 d2 el] in *. exact (eq_trans (flat_sum (d1 b) (d2 b) (fun j => cmul (cconj (q k j)) (q k' j))) (onb_nth m qs G1 k k' Hk Hk')).
  - intros x s k _ _ _. reflexivity.
  - intros j s y Hj Hs Hy. cbn [d0 el]. assert (M : made m qs (t_row b j)) by (apply G2; apply in_map; apply in_seq; lia).
    specialize (M (y * d1 b + s) ltac:(unfold m; nia)). rewrite comb_sum in M. unfold t_row at 1 in M. destruct (divmod (d1 b) y s Hs) as [E1 E2]. rewrite E1, E2 in M. exact M.
Qed.
Lemma xright_thin : thin_right xright. Proof. intros a b. cbn. lia. Qed.
Lemma xright_full : full_right xright. Proof. intros a b. reflexivity. Qed.
Lemma xleft_full : full_left xleft. Proof. intros a b. cbn. lia. Qed.
