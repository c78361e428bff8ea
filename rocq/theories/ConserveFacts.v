(** The local problems of a chain in canonical form: norm and energy of the state are those of the local vector. *)
From Coq Require Import List Arith Bool Lia QArith Qreals Reals Lra Ring_theory.
From Verif Require Import Base Disk SweepSpec NoiseSpec Tdvp TdvpSpec FiniteMps FmpsSpec FmpsFacts EffHam EffHamSpec EffHamFacts ChainSpec ChainFacts Legs VmpsLocal VmpsSpec VmpsEnv VmpsHeff Lanczos LanczosSpec KrylovSpec Cx KrylovInst GVec GVecFacts DmrgStep ChainOne ChainPair ChainUpdate DmrgVarSpec DmrgVar ConserveSpec.
Import ListNotations.
Local Open Scope nat_scope.

(** *** lists of sites *)
Lemma Forall2_map : forall A B C (P : B -> C -> Prop) (f : A -> B) (g : A -> C) l, Forall2 P (map f l) (map g l) <-> Forall (fun i => P (f i) (g i)) l.
Proof.
  intros A B C P f g. induction l as [|a l IH]; cbn; [split; constructor|]. split; intros H; inversion H; subst; constructor; try tauto.
Qed.
Section Sites.
Variable N : nat.
Lemma sites_one : forall A (f : nat -> A) j, j < N -> sites N f = sites j f ++ [f j] ++ map f (seq (j + 1) (N - 1 - j)).
Proof.
  intros A f j H. unfold sites. replace N with (j + (1 + (N - 1 - j))) at 1 by lia. rewrite seq_app, map_app, Nat.add_0_l. f_equal. cbn [Nat.add seq map app]. replace (j + 1) with (S j) by lia. reflexivity.
Qed.
Lemma sites_set1 : forall A (f : nat -> A) j a, j < N -> sites N (fset f j a) = sites j f ++ [a] ++ map f (seq (j + 1) (N - 1 - j)).
Proof.
  intros A f j a H. rewrite (sites_one A _ j H). unfold fset at 2. rewrite Nat.eqb_refl. f_equal.
  - unfold sites. apply map_ext_in. intros i Hi. apply in_seq in Hi. unfold fset. replace (i =? j) with false by (symmetry; apply Nat.eqb_neq; lia). reflexivity.
  - apply (f_equal (fun z => [a] ++ z)). apply map_ext_in. intros i Hi. apply in_seq in Hi. unfold fset. replace (i =? j) with false by (symmetry; apply Nat.eqb_neq; lia). reflexivity.
Qed.
End Sites.
Lemma fit_mid1 : forall R (tl tr : list (ten R)) t X Y, fit R X (tl ++ [t] ++ tr) Y <-> fit R X tl (d0 t) /\ fit R (d2 t) tr Y.
Proof.
  intros R tl tr t X Y. split.
  - intros H. destruct (fit_inv _ _ _ _ _ H) as [D [A B]]. cbn [app fit] in B. destruct B as [<- B]. auto.
  - intros [A B]. apply (fit_app R tl ([t] ++ tr) X (d0 t) Y); [exact A|]. cbn [app fit]. auto.
Qed.

(** *** environments of a run without undefined tensors *)
Section Env.
Variable N : nat.
Variable ws : nat -> cg.
Notation lenvs := (lenvs_from cx c0 cadd cmul cconj (trivial_env cx c0 c1 1 1)). Notation renvs := (renvs_from cx c0 cadd cmul cconj (trivial_env cx c0 c1 1 1)).
Notation lenv := (left_env (res cg) (res cg) w_triv (w_grow ws)). Notation renv := (right_env (res cg) (res cg) w_triv (w_grow ws) N).
Lemma lenvs_snoc : forall tl wl e t w, length wl = length tl -> lenvs_from cx c0 cadd cmul cconj e (tl ++ [t]) (wl ++ [w]) = (let! h := lenvs_from cx c0 cadd cmul cconj e tl wl in update_lenv cx c0 cadd cmul cconj h t w).
Proof.
  induction tl as [|u tl IH]; intros [|v wl] e t w H; try discriminate; cbn [app lenvs_from bind].
  - destruct (update_lenv _ _ _ _ _ e t w); reflexivity.
  - destruct (update_lenv cx c0 cadd cmul cconj e u v) as [h| |]; cbn [bind]; try reflexivity. apply IH. cbn in H. lia.
Qed.
Lemma lenv_lenvs : forall rs ts k, k <= N -> holds N rs ts -> lenv rs k = lenvs (sites k ts) (sites k ws).
Proof.
  intros rs ts k Hk HH. induction k as [|k IH]; [reflexivity|]. cbn [left_env]. rewrite IH, HH by lia. unfold sites. rewrite seq_S, !map_app. cbn [map Nat.add]. rewrite lenvs_snoc by (rewrite !map_length; reflexivity).
  unfold w_grow. cbn [bind]. reflexivity.
Qed.
Lemma renv_renvs : forall rs ts k, k <= N -> holds N rs ts -> renv rs k = renvs (map ts (seq (N - k) k)) (map ws (seq (N - k) k)).
Proof.
  intros rs ts k Hk HH. induction k as [|k IH]; [reflexivity|]. cbn [right_env]. rewrite IH, HH by lia.
  replace (seq (N - S k) (S k)) with ((N - 1 - k) :: seq (N - k) k) by (replace (N - S k) with (N - 1 - k) by lia; cbn [seq]; do 2 f_equal; lia).
  cbn [map renvs_from]. unfold w_grow. destruct (renvs (map ts (seq (N - k) k)) (map ws (seq (N - k) k))); reflexivity.
Qed.
End Env.

Section Problem.
Variable N : nat.
Variable ws : nat -> cg.
Variable ds : list nat.
Hypothesis HH : hermitian_chain N ws ds.
Notation chain := (chain N ws ds). Notation sq_norm := (sq_norm N). Notation energy_val := (energy_val N ws).
Notation lenvs := (lenvs_from cx c0 cadd cmul cconj (trivial_env cx c0 c1 1 1)). Notation renvs := (renvs_from cx c0 cadd cmul cconj (trivial_env cx c0 c1 1 1)).

Lemma chain_iff : forall ts, chain ts <-> (forall i, i < N -> same_site cx (ts i) (ws i)) /\ fit cx 1 (sites N (fun i => cten_of (ts i))) 1 /\ wfit cx 1 (sites N (fun i => csite_of (ws i))) 1 /\ map (@d1 cx) (sites N (fun i => cten_of (ts i))) = ds.
Proof.
  intros ts. unfold ConserveSpec.chain, part, sites. rewrite Forall2_map, Forall_forall. rewrite !(map_map ts), !(map_map ws). split.
  - intros [[A [B C]] D]. repeat split; auto. intros i Hi. apply A. apply in_seq. lia.
  - intros [A [B [C D]]]. repeat split; auto. intros i Hi. apply in_seq in Hi. apply A. lia.
Qed.
Lemma part_seq : forall ts x m a n y k, (forall i, a <= i < a + n -> same_site cx (ts i) (ws i)) -> fit cx x (map (fun i => cten_of (ts i)) (seq a n)) y -> wfit cx m (map (fun i => csite_of (ws i)) (seq a n)) k ->
  cpart x m (map ts (seq a n)) (map ws (seq a n)) y k.
Proof.
  intros ts x m a n y k HS HF HW. unfold part. rewrite Forall2_map, Forall_forall, (map_map ts), (map_map ws). repeat split; auto. intros i Hi. apply in_seq in Hi. apply HS. lia.
Qed.
Lemma cut2_at : forall ts l, chain ts -> l + 1 < N -> exists D0 p1 D p2 D3, cgd (ts l) = [D0; p1; D] /\ cgd (ts (l + 1)) = [D; p2; D3] /\
  cut2 cx (sites l ts) (map ts (seq (l + 2) (N - (l + 2)))) (sites l ws) (map ws (seq (l + 2) (N - (l + 2)))) (ws l) (ws (l + 1)) D0 p1 p2 D3 /\
  fit cx 1 (sites l (fun i => cten_of (ts i))) D0 /\ fit cx D3 (map (fun i => cten_of (ts i)) (seq (l + 2) (N - (l + 2)))) 1.
Proof.
  intros ts l HC Hl. apply chain_iff in HC. destruct HC as [HS [HF [HW _]]].
  rewrite (sites_mid N _ _ l Hl) in HF. rewrite (sites_mid N _ _ l Hl) in HW. apply fit_mid in HF. destruct HF as [F1 [F2 F3]]. destruct (wfit_inv _ _ _ _ _ HW) as [M [W1 W2]]. cbn [app wfit] in W2. destruct W2 as [W2 [W3 W4]].
  destruct (HS l ltac:(lia)) as [D0 [p1 [D [m [n [E1 E2]]]]]]. destruct (HS (l + 1) ltac:(lia)) as [D' [p2 [D3 [m' [n' [E3 E4]]]]]].
  destruct (ten_dims cx _ _ _ _ E1) as [A0 [A1 A2]]. destruct (ten_dims cx _ _ _ _ E3) as [B0 [B1 B2]]. destruct (site_dims cx _ _ _ _ _ E2) as [C0 C1]. destruct (site_dims cx _ _ _ _ _ E4) as [C2 C3].
  rewrite A2, B0 in F2. subst D'. rewrite C2, C1 in W3. subst m'. rewrite C0 in W2. subst M. rewrite A0 in F1. rewrite B2 in F3. rewrite C3 in W4.
  exists D0, p1, D, p2, D3. split; [exact E1|]. split; [exact E3|]. split; [|split; [exact F1|exact F3]]. constructor. exists m, n, n'. split; [exact E2|]. split; [exact E4|].
  split; apply part_seq; auto; intros; apply HS; lia.
Qed.
Lemma cut1_at : forall ts j, chain ts -> j < N -> exists D0 p D2, cgd (ts j) = [D0; p; D2] /\
  cut1 cx (sites j ts) (map ts (seq (j + 1) (N - 1 - j))) (sites j ws) (map ws (seq (j + 1) (N - 1 - j))) (ws j) D0 p D2 /\
  fit cx 1 (sites j (fun i => cten_of (ts i))) D0 /\ fit cx D2 (map (fun i => cten_of (ts i)) (seq (j + 1) (N - 1 - j))) 1.
Proof.
  intros ts j HC Hj. apply chain_iff in HC. destruct HC as [HS [HF [HW _]]].
  rewrite (sites_one N _ _ j Hj) in HF. rewrite (sites_one N _ _ j Hj) in HW. apply fit_mid1 in HF. destruct HF as [F1 F3]. destruct (wfit_inv _ _ _ _ _ HW) as [M [W1 W2]]. cbn [app wfit] in W2. destruct W2 as [W2 W4].
  destruct (HS j Hj) as [D0 [p [D [m [n [E1 E2]]]]]].
  destruct (ten_dims cx _ _ _ _ E1) as [A0 [A1 A2]]. destruct (site_dims cx _ _ _ _ _ E2) as [C0 C1].
  rewrite C0 in W2. subst M. rewrite A0 in F1. rewrite A2 in F3. rewrite C1 in W4.
  exists D0, p, D. split; [exact E1|]. split; [|split; [exact F1|exact F3]]. constructor. exists m, n. split; [exact E2|].
  split; apply part_seq; auto; intros; apply HS; lia.
Qed.
Lemma bases : forall ts a n b k D0 D3, fit cx 1 (map (fun i => cten_of (ts i)) (seq a n)) D0 -> fit cx D3 (map (fun i => cten_of (ts i)) (seq b k)) 1 ->
  (forall i, a <= i < a + n -> cleft (cten_of (ts i))) -> (forall i, b <= i < b + k -> cright (cten_of (ts i))) ->
  left_basis cx c0 c1 cadd cmul cconj (map (fun i => cten_of (ts i)) (seq a n)) D0 /\ right_basis cx c0 c1 cadd cmul cconj (map (fun i => cten_of (ts i)) (seq b k)) D3.
Proof.
  intros ts a n b k D0 D3 F1 F2 HL HR. split.
  - apply (left_basis_ok cx c0 c1 cadd cmul csub copp cx_ring cconj cconj0 cconj1 cconj_add cconj_mul); [exact F1|]. apply Forall_forall. intros t It. apply in_map_iff in It. destruct It as [i [<- Ii]]. apply in_seq in Ii. apply HL. lia.
  - apply (right_basis_ok cx c0 c1 cadd cmul csub copp cx_ring cconj cconj0 cconj1 cconj_add cconj_mul); [exact F2|]. apply Forall_forall. intros t It. apply in_map_iff in It. destruct It as [i [<- Ii]]. apply in_seq in Ii. apply HR. lia.
Qed.

Notation e4 := (fun v : cvec => (fun a s1 s2 b => v [a; s1; s2; b]) : nat -> nat -> nat -> nat -> cx).
Notation e3 := (fun v : cvec => (fun a s b => v [a; s; b]) : nat -> nat -> nat -> cx).
Lemma ip4 : forall D0 p1 p2 D3 x y, g_ip [D0; p1; p2; D3] x y = cdot4 D0 p1 p2 D3 (e4 y) (e4 x).
Proof. intros. unfold g_ip, dot4. cbn [gsum]. do 4 (apply csum_ext; intros). ring. Qed.
Lemma ip3 : forall D0 p D2 x y, g_ip [D0; p; D2] x y = dot3 cx c0 cadd cmul cconj D0 p D2 (e3 y) (e3 x).
Proof. intros. unfold g_ip, dot3. cbn [gsum]. do 3 (apply csum_ext; intros). ring. Qed.
Lemma cfg4 : forall D0 p1 p2 D3 (k : list nat), In k (configs [D0; p1; p2; D3]) -> exists a s1 s2 b, k = [a; s1; s2; b] /\ a < D0 /\ s1 < p1 /\ s2 < p2 /\ b < D3.
Proof.
  intros D0 p1 p2 D3 k H. cbn [configs] in H. repeat (apply in_flat_map in H; destruct H as [? [?I H]]; apply in_map_iff in H; destruct H as [? [<- H]]). destruct H as [<-|[]].
  repeat match goal with I : In _ (seq _ _) |- _ => apply in_seq in I end. do 4 eexists. split; [reflexivity|]. lia.
Qed.
Lemma cfg3 : forall D0 p D2 (k : list nat), In k (configs [D0; p; D2]) -> exists a s b, k = [a; s; b] /\ a < D0 /\ s < p /\ b < D2.
Proof.
  intros D0 p D2 k H. cbn [configs] in H. repeat (apply in_flat_map in H; destruct H as [? [?I H]]; apply in_map_iff in H; destruct H as [? [<- H]]). destruct H as [<-|[]].
  repeat match goal with I : In _ (seq _ _) |- _ => apply in_seq in I end. do 3 eexists. split; [reflexivity|]. lia.
Qed.

Section Two.
Variable svd : nat -> cg -> cg * cg * cg.
(** the decomposition of [g] may drop a part of it: its factors multiply to [y] *)
Lemma two_problem_to : forall ts l, chain ts -> l + 1 < N -> (forall i, i < l -> cleft (cten_of (ts i))) -> (forall i, l + 1 < i < N -> cright (cten_of (ts i))) ->
  exists el er x z, lenvs (sites l ts) (sites l ws) = Ok el /\ renvs (map ts (seq (l + 2) (N - (l + 2)))) (map ws (seq (l + 2) (N - (l + 2)))) = Ok er /\
  gcontract cx c0 cadd cmul [2] [0] (ts l) (ts (l + 1)) = Ok x /\ mul2 cx c0 cadd cmul el (ws l) (ws (l + 1)) er x = Ok z /\
  let ip := g_ip (cgd x) in let mul := h_two ws l el er (cgd x) in
  (forall u v, ip (mul u) v = ip u (mul v)) /\ ip (cge x) (cge x) = sq_norm ts /\ ip (mul (cge x)) (cge x) = energy_val ts /\
  forall (rt : bool) g y, factors cx c0 cadd cmul svd 2 (mkG cx (cgd x) g) (mkG cx (cgd x) y) -> (let '(u, _, vt) := svd 2 (mkG cx (cgd x) g) in cleft (cten_of u) /\ cright (cten_of vt)) ->
    exists a b, split2 cx c0 cadd cmul svd rt (mkG cx (cgd x) g) = Ok (a, b) /\
    let ts' := fset (fset ts l a) (l + 1) b in
    chain ts' /\ (if rt then cleft (cten_of a) else cright (cten_of b)) /\ sq_norm ts' = ip y y /\ energy_val ts' = ip (mul y) y /\
    csplits (nth 0 (cgd x) 0) (nth 1 (cgd x) 0) (nth 2 (cgd x) 0) (nth 3 (cgd x) 0) (e4 y) (cten_of a) (cten_of b) /\
    (if rt then a = fst (fst (svd 2 (mkG cx (cgd x) g))) else b = snd (svd 2 (mkG cx (cgd x) g))).
Proof.
  intros ts l HC Hl HL HR. destruct (cut2_at ts l HC Hl) as [D0 [p1 [D [p2 [D3 [E1 [E2 [HCut [F1 F3]]]]]]]]].
  destruct (bases ts 0 l (l + 2) (N - (l + 2)) D0 D3 F1 F3) as [LB RB]; [intros; apply HL; lia|intros; apply HR; lia|].
  destruct (mul2_projected cx c0 c1 cadd cmul csub copp cx_ring cconj cconj0 cconj1 cconj_add cconj_mul _ _ _ _ _ _ _ _ _ _ HCut) as [el [er [L1 [R1 MP]]]].
  destruct (pair_ok cx c0 cadd cmul _ _ _ _ _ _ _ E1 E2) as [x [X1 [X2 X3]]].
  destruct (MP x X2) as [z [Z1 _]]. exists el, er, x, z. split; [exact L1|]. split; [exact R1|]. split; [exact X1|]. split; [exact Z1|]. cbv zeta. rewrite X2.
  set (tl := sites l (fun i => cten_of (ts i))) in *. set (tr := map (fun i => cten_of (ts i)) (seq (l + 2) (N - (l + 2)))) in *.
  set (wl := sites l (fun i => csite_of (ws i))). set (wr := map (fun i => csite_of (ws i)) (seq (l + 2) (N - (l + 2)))).
  set (w1 := csite_of (ws l)). set (w2 := csite_of (ws (l + 1))).
  set (mul := h_two ws l el er [D0; p1; p2; D3]).
  assert (MUL : forall v a s1 s2 b, a < D0 -> s1 < p1 -> s2 < p2 -> b < D3 -> mul v [a; s1; s2; b] = projected cx c0 c1 cadd cmul cconj tl tr wl w1 w2 wr D0 p1 p2 D3 (e4 v) a s1 s2 b).
  { intros v a s1 s2 b Ha _ _ Hb. unfold mul, h_two. destruct (MP (mkG cx [D0; p1; p2; D3] v) eq_refl) as [y [Y1 [_ Y2]]]. rewrite Y1, Y2 by auto. unfold sites. rewrite !map_map. reflexivity. }
  assert (EXT : forall v u, g_ip [D0; p1; p2; D3] (mul v) u = cdot4 D0 p1 p2 D3 (e4 u) (projected cx c0 c1 cadd cmul cconj tl tr wl w1 w2 wr D0 p1 p2 D3 (e4 v))).
  { intros v u. rewrite ip4. unfold dot4. do 4 (apply csum_ext; intros). rewrite MUL by auto. reflexivity. }
  assert (WS : map csite_of (sites N ws) = wl ++ [w1; w2] ++ wr) by (unfold sites at 1; rewrite map_map; apply (sites_mid N _ (fun i => csite_of (ws i)) l Hl)).
  assert (TS : map cten_of (sites N ts) = tl ++ [cten_of (ts l); cten_of (ts (l + 1))] ++ tr) by (unfold sites at 1; rewrite map_map; apply (sites_mid N _ (fun i => cten_of (ts i)) l Hl)).
  destruct (ten_dims cx _ _ _ _ E1) as [A0 [A1 A2]]. destruct (ten_dims cx _ _ _ _ E2) as [B0 [B1 B2]].
  assert (SS : csplits D0 p1 p2 D3 (e4 (cge x)) (cten_of (ts l)) (cten_of (ts (l + 1)))).
  { split; try congruence. intros. symmetry. apply X3. }
  split; [|split; [|split]].
  - intros u v. rewrite EXT, <- (g_conj _ (mul v) u), EXT. apply (projected_hermitian cx c0 c1 cadd cmul csub copp cx_ring cconj cconj0 cconj_add cconj_mul cconj_conj). rewrite <- WS.
    replace (map (@d1 cx) tl ++ [p1; p2] ++ map (@d1 cx) tr) with ds; [exact HH|]. destruct HC as [_ HD]. rewrite <- HD, TS, !map_app. cbn [map]. rewrite A1, B1. reflexivity.
  - unfold ConserveSpec.sq_norm. rewrite ip4, TS. symmetry. apply (norm2_splits cx c0 c1 cadd cmul csub copp cx_ring cconj cconj0 cconj_add cconj_mul); auto.
  - unfold ConserveSpec.energy_val. rewrite EXT, TS, WS. symmetry. apply (energy_splits cx c0 c1 cadd cmul csub copp cx_ring cconj cconj0 cconj_add cconj_mul); auto.
  - intros rt g y FA CA.
    destruct (split2_pair_to cx c0 c1 cadd cmul csub copp cx_ring svd rt (mkG cx [D0; p1; p2; D3] g) (mkG cx [D0; p1; p2; D3] y) _ _ _ _ eq_refl FA) as [a [b [K [S1 [S2 [S3 [S4 S5]]]]]]]. exists a, b. split; [exact S1|]. cbv zeta.
    assert (TS' : map cten_of (sites N (fset (fset ts l a) (l + 1) b)) = tl ++ [cten_of a; cten_of b] ++ tr).
    { rewrite (sites_set N _ _ _ _ _ Hl), !map_app. cbn [map]. unfold sites. rewrite !map_map. reflexivity. }
    destruct (ten_dims cx _ _ _ _ S2) as [P0 [P1 P2]]. destruct (ten_dims cx _ _ _ _ S3) as [Q0 [Q1 Q2]].
    split; [|split; [|split; [|split; [|split; [exact S4|exact S5]]]]].
    + assert (HC' := HC). apply chain_iff in HC'. destruct HC' as [HS [HF [HW HD]]]. unfold ConserveSpec.chain, part. rewrite TS'. split; [split; [|split]|].
      * unfold sites. apply Forall2_map, Forall_forall. intros i Hi. apply in_seq in Hi. destruct (Nat.eq_dec i (l + 1)) as [->|N1]; [|destruct (Nat.eq_dec i l) as [->|N2]].
        -- unfold fset. rewrite Nat.eqb_refl. destruct (HS (l + 1) ltac:(lia)) as [? [? [? [m [n [U V]]]]]]. rewrite E2 in U. injection U as <- <- <-. exists K, p2, D3, m, n. auto.
        -- unfold fset. replace (l =? l + 1) with false by (symmetry; apply Nat.eqb_neq; lia). rewrite Nat.eqb_refl. destruct (HS l ltac:(lia)) as [? [? [? [m [n [U V]]]]]]. rewrite E1 in U. injection U as <- <- <-. exists D0, p1, K, m, n. auto.
        -- unfold fset. replace (i =? l + 1) with false by (symmetry; apply Nat.eqb_neq; lia). replace (i =? l) with false by (symmetry; apply Nat.eqb_neq; lia). apply HS. lia.
      * apply fit_mid. rewrite P0, Q2. split; [exact F1|]. split; [congruence|exact F3].
      * unfold sites. rewrite map_map. exact HW.
      * destruct HC as [_ HD']. rewrite <- HD', TS, !map_app. cbn [map]. rewrite P1, Q1, A1, B1. reflexivity.
    + destruct (svd 2 (mkG cx [D0; p1; p2; D3] g)) as [[u s] vt]. cbn [fst snd] in S5. destruct rt; subst; tauto.
    + unfold ConserveSpec.sq_norm. rewrite TS', ip4. apply (norm2_splits cx c0 c1 cadd cmul csub copp cx_ring cconj cconj0 cconj_add cconj_mul tl tr (cten_of a) (cten_of b) (e4 y) D0 p1 p2 D3); auto.
    + unfold ConserveSpec.energy_val. rewrite TS', WS, EXT. apply (energy_splits cx c0 c1 cadd cmul csub copp cx_ring cconj cconj0 cconj_add cconj_mul tl tr wl w1 w2 wr (cten_of a) (cten_of b) (e4 y) D0 p1 p2 D3); auto.
Qed.
Hypothesis ES : exact_gsvd svd.
Lemma two_problem : forall ts l, chain ts -> l + 1 < N -> (forall i, i < l -> cleft (cten_of (ts i))) -> (forall i, l + 1 < i < N -> cright (cten_of (ts i))) ->
  exists el er x z, lenvs (sites l ts) (sites l ws) = Ok el /\ renvs (map ts (seq (l + 2) (N - (l + 2)))) (map ws (seq (l + 2) (N - (l + 2)))) = Ok er /\
  gcontract cx c0 cadd cmul [2] [0] (ts l) (ts (l + 1)) = Ok x /\ mul2 cx c0 cadd cmul el (ws l) (ws (l + 1)) er x = Ok z /\
  let ip := g_ip (cgd x) in let mul := h_two ws l el er (cgd x) in
  (forall u v, ip (mul u) v = ip u (mul v)) /\ ip (cge x) (cge x) = sq_norm ts /\ ip (mul (cge x)) (cge x) = energy_val ts /\
  forall (rt : bool) g, exists a b, split2 cx c0 cadd cmul svd rt (mkG cx (cgd x) g) = Ok (a, b) /\
    let ts' := fset (fset ts l a) (l + 1) b in
    chain ts' /\ (if rt then cleft (cten_of a) else cright (cten_of b)) /\ sq_norm ts' = ip g g /\ energy_val ts' = ip (mul g) g.
Proof.
  intros ts l HC Hl HL HR. destruct (cut2_at ts l HC Hl) as [D0 [p1 [D [p2 [D3 [E1 [E2 _]]]]]]].
  destruct (pair_ok cx c0 cadd cmul _ _ _ _ _ _ _ E1 E2) as [x' [X1 [X2 _]]].
  destruct (two_problem_to ts l HC Hl HL HR) as [el [er [x [z [A1 [A2 [A3 [A4 [A5 [A6 [A7 SP]]]]]]]]]]]. rewrite X1 in A3. injection A3 as <-.
  exists el, er, x', z. split; [exact A1|]. split; [exact A2|]. split; [exact X1|]. split; [exact A4|]. split; [exact A5|]. split; [exact A6|]. split; [exact A7|].
  intros rt g. destruct (ES (mkG cx (cgd x') g) _ _ _ _ X2) as [FA CA]. destruct (SP rt g g FA CA) as [a [b [S1 [S2 [S3 [S4 [S5 _]]]]]]]. exists a, b. split; [exact S1|]. split; [exact S2|]. split; [exact S3|]. split; [exact S4|exact S5].
Qed.
End Two.

Lemma one_problem : forall ts j, chain ts -> j < N -> center_at N j ts ->
  exists el er z, lenvs (sites j ts) (sites j ws) = Ok el /\ renvs (map ts (seq (j + 1) (N - 1 - j))) (map ws (seq (j + 1) (N - 1 - j))) = Ok er /\
  mul1 cx c0 cadd cmul el (ws j) er (ts j) = Ok z /\
  let ls := cgd (ts j) in let ip := g_ip ls in let mul := h_one ws j el er ls in
  (forall u v, ip (mul u) v = ip u (mul v)) /\ ip (cge (ts j)) (cge (ts j)) = sq_norm ts /\ ip (mul (cge (ts j))) (cge (ts j)) = energy_val ts /\
  forall g, let ts' := fset ts j (mkG cx ls g) in chain ts' /\ sq_norm ts' = ip g g /\ energy_val ts' = ip (mul g) g.
Proof.
  intros ts j HC Hj [HL HR]. destruct (cut1_at ts j HC Hj) as [D0 [p [D2 [E1 [HCut [F1 F3]]]]]].
  destruct (bases ts 0 j (j + 1) (N - 1 - j) D0 D2 F1 F3) as [LB RB]; [intros; apply HL; lia|intros; apply HR; lia|].
  destruct (mul1_projected cx c0 c1 cadd cmul csub copp cx_ring cconj cconj0 cconj1 cconj_add cconj_mul _ _ _ _ _ _ _ _ HCut) as [el [er [L1 [R1 MP]]]].
  destruct (MP (ts j) E1) as [z [Z1 _]]. exists el, er, z. split; [exact L1|]. split; [exact R1|]. split; [exact Z1|]. cbv zeta. rewrite E1.
  set (tl := sites j (fun i => cten_of (ts i))) in *. set (tr := map (fun i => cten_of (ts i)) (seq (j + 1) (N - 1 - j))) in *.
  set (wl := sites j (fun i => csite_of (ws i))). set (wr := map (fun i => csite_of (ws i)) (seq (j + 1) (N - 1 - j))). set (w := csite_of (ws j)).
  set (mul := h_one ws j el er [D0; p; D2]).
  assert (EXT : forall v u, g_ip [D0; p; D2] (mul v) u = dot3 cx c0 cadd cmul cconj D0 p D2 (e3 u) (projected1 cx c0 c1 cadd cmul cconj tl tr wl w wr D0 p D2 (e3 v))).
  { intros v u. rewrite ip3. unfold dot3. apply csum_ext. intros a Ha. apply csum_ext. intros s Hs. apply csum_ext. intros b Hb. f_equal.
    unfold mul, h_one. destruct (MP (mkG cx [D0; p; D2] v) eq_refl) as [y [Y1 [_ Y2]]]. rewrite Y1, Y2 by auto. unfold sites. rewrite !map_map. reflexivity. }
  assert (WS : map csite_of (sites N ws) = wl ++ [w] ++ wr) by (unfold sites at 1; rewrite map_map; apply (sites_one N _ (fun i => csite_of (ws i)) j Hj)).
  assert (TS' : forall t, map cten_of (sites N (fset ts j t)) = tl ++ [cten_of t] ++ tr).
  { intros t. rewrite (sites_set1 N _ _ _ _ Hj), !map_app. cbn [map]. unfold sites. rewrite !map_map. reflexivity. }
  assert (TS : map cten_of (sites N ts) = tl ++ [cten_of (ts j)] ++ tr) by (unfold sites at 1; rewrite map_map; apply (sites_one N _ (fun i => cten_of (ts i)) j Hj)).
  destruct (ten_dims cx _ _ _ _ E1) as [A0 [A1 A2]].
  assert (NE : forall t, cgd t = [D0; p; D2] -> cnorm2 (tl ++ [cten_of t] ++ tr) = g_ip [D0; p; D2] (cge t) (cge t) /\ cenergy (tl ++ [cten_of t] ++ tr) (wl ++ [w] ++ wr) = g_ip [D0; p; D2] (mul (cge t)) (cge t)).
  { intros t Et. destruct (ten_dims cx _ _ _ _ Et) as [P0 [P1 P2]]. split.
    - rewrite ip3. rewrite (norm2_one cx c0 c1 cadd cmul csub copp cx_ring cconj cconj0 cconj_add cconj_mul) by (rewrite ?P0, ?P2; auto). rewrite P0, P1, P2. reflexivity.
    - rewrite EXT, (energy_one cx c0 c1 cadd cmul csub copp cx_ring cconj cconj0 cconj_add cconj_mul) by (rewrite ?P0; auto). rewrite P0, P1, P2. reflexivity. }
  split; [|split; [|split]].
  - intros u v. rewrite EXT, <- (g_conj _ (mul v) u), EXT. apply (projected1_hermitian cx c0 c1 cadd cmul csub copp cx_ring cconj cconj0 cconj_add cconj_mul cconj_conj). rewrite <- WS.
    replace (map (@d1 cx) tl ++ [p] ++ map (@d1 cx) tr) with ds; [exact HH|]. destruct HC as [_ HD]. rewrite <- HD, TS, !map_app. cbn [map]. rewrite A1. reflexivity.
  - unfold ConserveSpec.sq_norm. rewrite TS. symmetry. apply NE. exact E1.
  - unfold ConserveSpec.energy_val. rewrite TS, WS. symmetry. apply NE. exact E1.
  - intros g. unfold ConserveSpec.sq_norm, ConserveSpec.energy_val. rewrite TS', WS. split; [|apply (NE (mkG cx [D0; p; D2] g) eq_refl)].
    assert (HC' := HC). apply chain_iff in HC'. destruct HC' as [HS [HF [HW HD]]]. unfold ConserveSpec.chain, part. rewrite TS'. split; [split; [|split]|].
    + unfold sites. apply Forall2_map, Forall_forall. intros i Hi. apply in_seq in Hi. unfold fset. destruct (Nat.eqb_spec i j) as [->|N1]; [|apply HS; lia].
      destruct (HS j Hj) as [? [? [? [m [n [U V]]]]]]. rewrite E1 in U. injection U as <- <- <-. exists D0, p, D2, m, n. auto.
    + apply fit_mid1. cbn [d0 d2 Legs.ten_of gd nth]. auto.
    + unfold sites. rewrite map_map. exact HW.
    + destruct HC as [_ HD']. rewrite <- HD', TS, !map_app. cbn [map]. rewrite A1. reflexivity.
Qed.
End Problem.
