(** Decompositions that keep quantum numbers, and three sites where a particle hops between the last two. *)
From Coq Require Import List Arith Bool Lia ZArith QArith Qreals Reals Lra Ring_theory.
From Verif Require Import Base Disk SweepSpec TwoSite TwoSiteFacts Tdvp TdvpSpec TdvpRun FiniteMps FmpsSpec FmpsFacts EffHam EffHamSpec EffHamFacts ChainSpec Legs VmpsLocal VmpsSpec Lanczos LanczosSpec Krylov KrylovSpec Cx KrylovInst GVec GVecFacts DmrgStep ChainUpdate DmrgVarSpec DmrgVar DmrgVarInst ConserveSpec ConserveFacts ConserveRun ConserveInst CorrSpec CorrRun CorrInst EigenSpec EigenInst TruncUpdate TruncSpec TruncFacts TruncRun TruncInst TruncCase SectorSpec SectorFacts SectorRun.
Import ListNotations.
Local Open Scope nat_scope.

Section Svd.
Variables (G : Type) (q0 : G) (qadd : G -> G -> G) (qopp : G -> G).
Hypothesis QG : q_group q0 qadd qopp.
Variable ch : nat -> nat -> G.
Lemma live_legs : forall x, live x -> exists D0 p1 p2 D3, cgd x = [D0; p1; p2; D3].
Proof. intros [xd x] [L _]. cbn [gd] in *. destruct xd as [|a [|b [|c [|d [|? ?]]]]]; try discriminate L. eauto. Qed.
Lemma r_blocks : block_svd G qadd ch r_svd.
Proof.
  intros bl i br x LV HL. destruct (live_legs x LV) as [D0 [p1 [p2 [D3 E]]]]. destruct LV as [_ NZ]. destruct x as [xd x]. cbn [gd ge] in *. subst xd.
  destruct (row_in D0 p1 p2 D3 x NZ) as [R0 [R1 _]]. set (r := row D0 p1 p2 D3 x) in *.
  exists (fun _ => qadd (bl (fst r)) (ch i (snd r))), (fun _ => qadd (bl (fst r)) (ch i (snd r))). unfold keeps_labels, r_svd. cbn [gd ge nth]. fold r. split; [|split].
  - intros a s b Ha Hs Hb HN. cbn [gd ge nth] in *. destruct ((a =? fst r) && (s =? snd r)) eqn:B; [|congruence]. apply andb_true_iff in B. destruct B as [B1 B2]. apply Nat.eqb_eq in B1, B2. subst a s. reflexivity.
  - intros a t b Ha Ht Hb HN. cbn [gd ge nth] in *. apply mul_nz in HN. destruct HN as [_ HN]. apply (HL (fst r) (snd r) t b); auto.
  - intros. reflexivity.
Qed.
Lemma y_blocks : block_svd G qadd ch y_svd.
Proof.
  intros bl i br x LV HL. destruct (live_legs x LV) as [D0 [p1 [p2 [D3 E]]]]. clear LV. destruct x as [xd x]. cbn [gd ge] in *. subst xd.
  exists (fun k => qadd (bl (k / p1)) (ch i (k mod p1))), (fun k => qadd (br (k / p2)) (qopp (ch (i + 1) (k mod p2)))). unfold keeps_labels, y_svd. cbn [gd ge nth]. split; [|split].
  - intros a s k Ha Hs Hk HN. cbn [gd ge nth g_of_ten mergeL d0 d1 d2 el] in *. unfold delta in HN. destruct (Nat.eqb_spec k (a * p1 + s)) as [EK|]; [|congruence]. destruct (divmod p1 a s Hs) as [D M]. rewrite EK, D, M. reflexivity.
  - intros k t b Hk Ht Hb HN. cbn [gd ge nth g_of_ten mergeR d0 d1 d2 el] in *. unfold delta in HN. destruct (Nat.eqb_spec k (b * p2 + t)) as [EK|]; [|congruence]. destruct (divmod p2 b t Ht) as [D M]. rewrite EK, D, M.
    rewrite <- (qg_assoc _ _ _ QG), (qg_inv_l _ _ _ QG). apply (qg_r _ _ _ QG).
  - intros k k' Hk Hk' HN. assert (p1 <> 0) by (intros ->; lia). assert (p2 <> 0) by (intros ->; lia).
    rewrite <- (HL (k / p1) (k mod p1) (k' mod p2) (k' / p2)); cbn [gd ge nth]; auto; try (apply Nat.mod_upper_bound; auto); try (apply Nat.div_lt_upper_bound; lia).
    rewrite <- !(qg_assoc _ _ _ QG), (qg_inv_r _ _ _ QG), (qg_r _ _ _ QG). reflexivity.
Qed.
Lemma y_qr_blocks : block_qr G qadd ch y_qr.
Proof.
  intros bl i br x D p D2 E HL. destruct x as [xd x]. cbn [gd ge] in *. subst xd.
  exists (fun k => qadd (br (k / p)) (qopp (ch i (k mod p)))). unfold y_qr. cbn [gd ge nth]. split.
  - intros k s b Hk Hs Hb HN. cbn [gd ge nth g_of_ten mergeL d0 d1 d2 el] in *. unfold delta in HN. destruct (Nat.eqb_spec k (b * p + s)) as [EK|]; [|congruence]. destruct (divmod p b s Hs) as [DD M]. rewrite EK, DD, M.
    rewrite <- (qg_assoc _ _ _ QG), (qg_inv_l _ _ _ QG). apply (qg_r _ _ _ QG).
  - intros k a Hk Ha HN. cbn [gd ge nth g_of_ten mergeL d2] in *. assert (p <> 0) by (intros ->; lia).
    rewrite <- (HL a (k mod p) (k / p)); auto; try (apply Nat.mod_upper_bound; auto); try (apply Nat.div_lt_upper_bound; lia).
    rewrite <- (qg_assoc _ _ _ QG), (qg_inv_r _ _ _ QG), (qg_r _ _ _ QG). reflexivity.
Qed.
End Svd.

(** *** X_1 X_2 + Y_1 Y_2 and the particle number *)
Definition z_ch (i s : nat) : Z := Z.of_nat s.
Lemma z_group : q_group 0%Z Z.add Z.opp.
Proof. split; intros; lia. Qed.
Definition oY (s s' : nat) : cx := if s + s' =? 1 then (if s =? 0 then (0, -1)%R else (0, 1)%R) else c0.
Definition h_op (i x y s s' : nat) : cx :=
  match i with 0 => oI s s' | 1 => if y =? 0 then oX s s' else oY s s' | _ => if x =? 0 then oX s s' else oY s s' end.
Definition h_ws (i : nat) : cg := mkG cx (match i with 0 => [1; 2; 2; 1] | 1 => [1; 2; 2; 2] | _ => [2; 2; 2; 1] end) (fun l => h_op i (nth 0 l 0) (nth 3 l 0) (nth 1 l 0) (nth 2 l 0)).
Lemma h_herm : hermitian_chain 3 h_ws [2; 2; 2].
Proof.
  unfold hermitian_chain. unfold sites. rewrite map_map. apply (entries_hermitian 3 (fun i => csite_of (h_ws i))).
  assert (HI : forall s s', oI s s' = cconj (oI s' s)) by (intros; unfold oI, delta; rewrite (Nat.eqb_sym s'); destruct (s =? s'); symmetry; [apply cconj1|apply cconj0]).
  assert (HX : forall s s', oX s s' = cconj (oX s' s)) by (intros; unfold oX; rewrite (Nat.add_comm s'); destruct (s + s' =? 1); symmetry; [apply cconj1|apply cconj0]).
  assert (HY : forall s s', oY s s' = cconj (oY s' s)).
  { intros s s'. unfold oY. rewrite (Nat.add_comm s'). destruct (Nat.eqb_spec (s + s') 1) as [E|]; [|symmetry; apply cconj0]. destruct s as [|s], s' as [|s']; try lia; cbn [Nat.eqb]; unfold cconj; cbn [fst snd]; f_equal; ring. }
  intros i x y s s'. unfold mval at 1 2. cbn [site_of ent h_ws ge nth]. destruct i as [|[|i]]; cbn [h_op]; auto; [destruct (y =? 0); auto|destruct (x =? 0); auto].
Qed.
(** the elements of the operator: 2 for a hop *)
Definition h_el (a b c a' b' c' : nat) : cx := if (a =? a') && (b + c =? 1) && (b + b' =? 1) && (c + c' =? 1) then cre 2 else c0.
Lemma h_mat : forall a b c a' b' c', a < 2 -> b < 2 -> c < 2 -> a' < 2 -> b' < 2 -> c' < 2 ->
  mpo_mat cx c0 c1 cadd cmul (map csite_of (sites 3 h_ws)) [a; b; c] [a'; b'; c'] 0 0 = h_el a b c a' b' c'.
Proof.
  intros a b c a' b' c' Ha Hb Hc Ha' Hb' Hc'.
  transitivity (cmul (oI a a') (cadd (cmul (oX b b') (oX c c')) (cmul (oY b b') (oY c c')))).
  - cbn -[cadd cmul c0 c1 oX oY oI]. unfold mval, delta. cbn -[cadd cmul c0 c1 oX oY oI]. ring.
  - unfold h_el, oI, delta. destruct (a =? a'); cbn [andb]; [|ring].
    destruct b as [|[|b]]; [| |lia]; (destruct c as [|[|c]]; [| |lia]); (destruct b' as [|[|b']]; [| |lia]); (destruct c' as [|[|c']]; [| |lia]);
    unfold oX, oY; cbn [Nat.eqb Nat.add andb]; unfold c0, c1, cre, cadd, cmul; cbn [fst snd]; f_equal; ring.
Qed.
Lemma h_conserving : conserving Z 0%Z Z.add z_ch 3 h_ws [2; 2; 2].
Proof.
  intros c c' Ic Ic' HN. rewrite cfg_222 in Ic, Ic'. assert (F : forall c, In c [[0;0;0];[0;0;1];[0;1;0];[0;1;1];[1;0;0];[1;0;1];[1;1;0];[1;1;1]] -> exists u v w, c = [u; v; w] /\ u < 2 /\ v < 2 /\ w < 2).
  { intros d I. cbn [In] in I. repeat (destruct I as [<-|I]; [do 3 eexists; split; [reflexivity|lia]|]). destruct I. }
  destruct (F c Ic) as [u [v [w [-> [Hu [Hv Hw]]]]]]. destruct (F c' Ic') as [u' [v' [w' [-> [Hu' [Hv' Hw']]]]]]. clear F Ic Ic'. rewrite h_mat in HN by auto.
  unfold h_el in HN. destruct ((u =? u') && (v + w =? 1) && (v + v' =? 1) && (w + w' =? 1)) eqn:B; [|congruence]. rewrite !andb_true_iff, !Nat.eqb_eq in B. cbn [total]. unfold z_ch. lia.
Qed.
(** basis states *)
Definition h_ts (f : nat -> nat) (i : nat) : cg := mkG cx [1; 2; 1] (fun l => cdelta (nth 1 l 0) (f i)).
Definition h_q (f : nat -> nat) : Z := (Z.of_nat (f 0%nat) + Z.of_nat (f 1%nat) + Z.of_nat (f 2%nat))%Z.
Definition h_bt (f : nat -> nat) (i a : nat) : Z := fold_left (fun z j => z + Z.of_nat (f j))%Z (seq 0 i) 0%Z.
Lemma h_blocks : forall f, blocks Z Z.add z_ch 3 (h_bt f) (h_q f) (h_ts f).
Proof.
  intros f. split; [|unfold h_bt, h_q; cbn; lia]. intros i Hi a s b Ha Hs Hb HN. cbn [h_ts ge nth] in HN. unfold delta in HN. destruct (Nat.eqb_spec s (f i)) as [->|]; [|congruence].
  unfold h_bt, z_ch. rewrite seq_app, fold_left_app. reflexivity.
Qed.
Lemma h_chain : forall f, chain 3 h_ws [2; 2; 2] (h_ts f).
Proof. intros f. split; [|reflexivity]. split; [|split; cbn; auto]. repeat constructor; repeat eexists. Qed.
Lemma h_right : forall f i, f i < 2 -> cright (cten_of (h_ts f i)).
Proof.
  intros f i Hf k k' Hk Hk'. cbn [h_ts Legs.ten_of gd ge nth d0 d1 d2 el] in *. replace k with 0 by lia. replace k' with 0 by lia. cbn [FmpsSpec.sumn].
  destruct (f i) as [|[|n]]; [| |lia]; unfold delta; cbn [Nat.eqb]; rewrite ?cconj0, ?cconj1; ring.
Qed.
Lemma h_mixed : forall f, (forall i, f i < 2) -> mixed_at 3 0 (h_ts f).
Proof. intros f Hf. split; intros i Hi; [lia|apply h_right; auto]. Qed.
Lemma h_norm : forall f, (forall i, f i < 2) -> sq_norm 3 (h_ts f) = c1.
Proof.
  intros f Hf. unfold sq_norm, norm2. pose proof (Hf 0) as H0. pose proof (Hf 1) as H1. pose proof (Hf 2) as H2.
  cbn -[cadd cmul cconj c0 c1 delta]. destruct (f 0) as [|[|?]]; [| |lia]; (destruct (f 1) as [|[|?]]; [| |lia]); (destruct (f 2) as [|[|?]]; [| |lia]);
  unfold delta; cbn [Nat.eqb]; repeat (rewrite ?cconj_mul, ?cconj_add, ?cconj0, ?cconj1); ring.
Qed.
Lemma h_nz : forall f, (forall i, f i < 2) -> sq_norm 3 (h_ts f) <> c0.
Proof. intros f Hf. rewrite h_norm by auto. unfold c0, c1. intros E. injection E as E. lra. Qed.
Definition h_w {En} (f : nat -> nat) : world (res cg) (res cg) En := mkW _ _ _ 3 fnone 0 fnone fnone None None (fun i => Some (Ok (h_ts f i))) fnone fnone false.
(** no particle: energy 0; one particle: down to -2 *)
Lemma h_empty : sector_bounded Z 0%Z Z.add z_ch 3 h_ws [2; 2; 2] 0%Z 0.
Proof.
  intros v HS. assert (Z : forall a b c, In [a; b; c] (configs [2; 2; 2]) -> a + b + c <> 0 -> v [a; b; c] = c0).
  { intros a b c I NE. destruct (cx_dec (v [a; b; c])) as [E|E]; [exact E|]. exfalso. specialize (HS _ I E). cbn [total] in HS. unfold z_ch in HS. lia. }
  unfold weight. rewrite cfg_222 in *. cbn [lsum fold_right]. rewrite !h_mat by lia.
  rewrite (Z 0 0 1), (Z 0 1 0), (Z 0 1 1), (Z 1 0 0), (Z 1 0 1), (Z 1 1 0), (Z 1 1 1) by (cbn; auto 10; lia). unfold h_el. cbn [Nat.eqb Nat.add andb].
  match goal with |- (_ <= fst ?z)%R => replace z with c0 by (rewrite ?cconj0; ring) end. cbn. lra.
Qed.
Lemma h_below : ~ bounded_below 3 h_ws [2; 2; 2] (-1).
Proof.
  intros H. specialize (H (fun c => match c with [0; 0; 1] => c1 | [0; 1; 0] => copp c1 | _ => c0 end)). revert H. unfold weight. rewrite cfg_222. cbn [lsum fold_right]. rewrite !h_mat by lia. unfold h_el. cbn [Nat.eqb Nat.add andb].
  match goal with |- (_ * fst ?w <= fst ?z)%R -> _ => replace w with (cadd c1 c1) by (rewrite ?cconj0, ?cconj_opp, ?cconj1; ring); replace z with (copp (cmul (cadd c1 c1) (cre 2))) by (rewrite ?cconj0, ?cconj_opp, ?cconj1; ring) end.
  unfold c1, cadd, cmul, copp, cre. cbn [fst snd]. lra.
Qed.
(** a particle created on site 1 *)
Definition h_vac (i : nat) : nat := 0.
Definition h_one1 (i : nat) : nat := if i =? 1 then 1 else 0.
Definition h_ta (i : nat) : cg := match (if i =? 1 then t_act y_op (Ok (h_ts h_vac 1)) else Ok (h_ts h_vac i)) with Ok t => t | _ => h_ts h_vac i end.
Lemma h_acted : holds 3 (acted (res cg) (t_act y_op) None 1 (fun i => Ok (h_ts h_vac i))) h_ta.
Proof. intros [|[|[|i]]] Hi; try lia; reflexivity. Qed.
Lemma h_ta_chain : chain 3 h_ws [2; 2; 2] h_ta.
Proof. split; [|reflexivity]. split; [|split; cbn; auto]. repeat constructor; repeat eexists. Qed.
Lemma h_ta_blocks : blocks Z Z.add z_ch 3 (h_bt h_one1) 1%Z h_ta.
Proof.
  split; [|reflexivity]. intros i Hi a s b Ha Hs Hb HN. destruct (h_blocks h_one1) as [B _].
  destruct i as [|[|[|i]]]; [exact (B 0 ltac:(lia) a s b Ha Hs Hb HN)| |exact (B 2 ltac:(lia) a s b Ha Hs Hb HN)|lia].
  apply (B 1 ltac:(lia) a s b Ha Hs Hb). intros E. apply HN. revert E. cbn [h_ta h_ts ge nth Nat.eqb] in *. destruct s as [|[|s]]; cbn in Hs; [| |lia]; unfold h_one1, delta; cbn -[cadd cmul c0 c1]; unfold oX; cbn -[cadd cmul c0 c1]; intros E; [ring|].
  exfalso. unfold c0, c1 in E. injection E as E. lra.
Qed.
Lemma h_ta_norm : sq_norm 3 h_ta = c1.
Proof. unfold sq_norm, norm2. cbn -[cadd cmul cconj c0 c1]. unfold oX, delta. cbn -[cadd cmul cconj c0 c1]. repeat (rewrite ?cconj_mul, ?cconj_add, ?cconj0, ?cconj1). ring. Qed.
Lemma h_ta_right : forall i, 1 < i < 3 -> cright (cten_of (h_ta i)).
Proof. intros i Hi. replace i with 2 by lia. apply (h_right h_vac 2). unfold h_vac. lia. Qed.
