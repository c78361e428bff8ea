(** Exact decompositions of tensors of one site; chains for the single-site theorems. *)
From Coq Require Import List Arith Bool Lia QArith Qreals Reals Lra Ring_theory.
From Verif Require Import Base Disk SweepSpec SingleSite SingleSpec SingleFacts FiniteMps FmpsSpec FmpsFacts EffHam EffHamSpec EffHamFacts ChainSpec Legs VmpsLocal VmpsSpec Cx GVec ChainUpdate DmrgStep DmrgVarSpec DmrgVar DmrgVarInst ConserveSpec ConserveFacts ConserveVmps ConserveInst SingleUpdate SingleVarSpec SingleVarRun.
Import ListNotations.
Local Open Scope nat_scope.

Definition y_one (b : nat) : cg := mkG cx [b; b] (fun l => cdelta (nth 0 l 0) (nth 1 l 0)).
Definition y_svd1 (n : nat) (x : cg) : cg * cg * cg :=
  let a := nth 0 (cgd x) 0 in let p := nth 1 (cgd x) 0 in let b := nth 2 (cgd x) 0 in
  if n =? 2 then (g_of_ten (mergeL a p), mkG cx [a * p; b] (fun l => cge x [nth 0 l 0 / p; nth 0 l 0 mod p; nth 1 l 0]), y_one b)
  else (y_one a, mkG cx [a; b * p] (fun l => cge x [nth 0 l 0; nth 1 l 0 mod p; nth 1 l 0 / p]), g_of_ten (mergeR p b)).
Lemma pick' : forall k n f, k < n -> csum n (fun j => cmul (f j) (cdelta j k)) = f k.
Proof. intros k n f H. rewrite <- (pick k n f H). apply sumn_ext. intros. ring. Qed.
Lemma pick2 : forall k n f, k < n -> csum n (fun j => cmul (cdelta k j) (f j)) = f k.
Proof. intros k n f H. rewrite <- (pick k n f H). apply sumn_ext. intros. unfold delta. rewrite Nat.eqb_sym. reflexivity. Qed.
Lemma y_svd1_ok : exact_gsvd1 y_svd1.
Proof.
  intros [xd x] D0 p D2 E. cbn in E. subst xd. split.
  - split; [|unfold y_svd1; cbn [gd nth Nat.eqb fst]; rewrite g_of_ten_back; apply mergeL_left].
    split; [reflexivity|]. unfold y_svd1. cbn [gd nth Nat.eqb]. exists (D0 * p), D2. split; [reflexivity|]. split; [reflexivity|]. split; [reflexivity|].
    intros i j Hi Hij. destruct (cfg3 D0 p D2 _ Hij) as [a [s [b [E [Ha [H1 Hb]]]]]]. destruct i as [|a' [|s1' [|? ?]]]; try discriminate. cbn [app] in E. injection E as -> -> ->. cbn [app].
    cbn [ge g_of_ten nth el mergeL y_one].
    transitivity (csum (D0 * p) (fun k => cmul (cdelta k (a * p + s)) (x [k / p; k mod p; b]))).
    + rewrite (pick (a * p + s) (D0 * p) (fun m => x [m / p; m mod p; b])) by nia. destruct (divmod p a s H1) as [-> ->]. reflexivity.
    + apply sumn_ext. intros k Hk. symmetry. rewrite (pick' b D2 (fun l => cmul (cdelta k (a * p + s)) (x [k / p; k mod p; l])) Hb). reflexivity.
  - split; [|unfold y_svd1; cbn [gd nth Nat.eqb snd]; rewrite g_of_ten_back; apply mergeR_right].
    split; [reflexivity|]. unfold y_svd1. cbn [gd nth Nat.eqb]. exists D0, (D2 * p). split; [reflexivity|]. split; [reflexivity|]. split; [reflexivity|].
    intros i j Hi Hij. destruct (cfg3 D0 p D2 _ Hij) as [a [s [b [E [Ha [H1 Hb]]]]]]. destruct i as [|a' [|? ?]]; try discriminate. cbn [app] in E. injection E as -> ->. cbn [app].
    cbn [ge g_of_ten nth el mergeR y_one].
    transitivity (csum D0 (fun k => cmul (cdelta a k) (x [k; s; b]))); [symmetry; apply (pick2 a D0 (fun k => x [k; s; b]) Ha)|].
    apply sumn_ext. intros k Hk. symmetry. etransitivity; [apply (pick' (b * p + s) (D2 * p) (fun l => cmul (cdelta a k) (x [k; l mod p; l / p]))); nia|].
    destruct (divmod p b s H1) as [-> ->]. reflexivity.
Qed.

(** LAPACK, as in ConserveInst *)
Lemma y_opts1 : forall al dec inc mx N ws size svd close bs s, opts1_lapack al dec inc mx N ws stev2 2 size svd close bs s.
Proof. intros al dec inc mx N ws size svd close bs. induction bs as [|b bs IH]; intros s; cbn [opts1_lapack]; [exact I|]. split; [|apply IH]. intros el a er _ _ _. apply y_eig. Qed.
Lemma y_sweeps1 : forall al dec inc mx N ws size svd close noise n k0 s, sweeps1_lapack al dec inc mx N ws stev2 2 size svd close noise n k0 s.
Proof. intros al dec inc mx N ws size svd close noise n. induction n as [|n IH]; intros k0 s; cbn [sweeps1_lapack]; [exact I|]. destruct (begin1 _ _ _ k0 (snd s)); [|exact I]. split; [apply y_opts1|apply IH]. Qed.

(** *** H = X0 + X1 + X2 in the state (3/5, -4/5) of every spin: energy -72/25 *)
Definition z_vec (s : nat) : cx := if s =? 0 then cre (3 / 5) else cre (- (4 / 5)).
Definition z_ts : nat -> cg := y_gen z_vec.
Lemma z_chain : chain 3 y_ws [2; 2; 2] z_ts.
Proof. split; [|reflexivity]. split; [|split; cbn; auto]. repeat constructor; repeat eexists. Qed.
Lemma z_center : center_at 3 0 z_ts.
Proof.
  split; [intros i Hi; lia|]. intros i _ k k' Hk Hk'. cbn [z_ts y_gen Legs.ten_of gd nth d0 d1 d2 el] in *. replace k with 0 by lia. replace k' with 0 by lia.
  cbn [FmpsSpec.sumn]. unfold delta. cbn. unfold c1, c0, cadd, cmul, cconj, cre. cbn [fst snd]. f_equal; field.
Qed.
Lemma z_n : cadd (cmul (cconj (z_vec 0)) (z_vec 0)) (cmul (cconj (z_vec 1)) (z_vec 1)) = c1.
Proof. unfold z_vec. cbn [Nat.eqb]. unfold c1, cadd, cmul, cconj, cre. cbn [fst snd]. f_equal; field. Qed.
Lemma z_norm : sq_norm 3 z_ts = c1.
Proof. unfold z_ts. rewrite y_norm_gen, z_n. ring. Qed.
Lemma z_energy : energy_val 3 y_ws z_ts = cre (- (72 / 25)).
Proof. unfold z_ts. rewrite y_energy_gen, z_n. unfold z_vec. cbn [Nat.eqb]. unfold c1, cadd, cmul, cconj, cre. cbn [fst snd]. f_equal; field. Qed.
Lemma z_has : has_energy 3 y_ws z_ts (- (72 / 25)).
Proof. split; [exact z_norm|exact z_energy]. Qed.
Definition chain_w {En} (ts : nat -> cg) : world (res cg) (res cg) En := mkW _ _ _ 3 fnone 0 fnone fnone None None (fun i => Some (Ok (ts i))) fnone fnone false.
Lemma chain_w_ok : forall ws ts, startable1 (res cg) (res cg) (res s1st) w_triv (w_grow ws) 3 (fun i => Ok (ts i)) (chain_w ts).
Proof. intros ws ts. split; [reflexivity|]. split; [intros i _; reflexivity|]. split; [intros i _; reflexivity|]. intros H. discriminate. Qed.

(** *** H = 1: every state has energy 1 *)
Definition i_ws (i : nat) : cg := mkG cx [1; 2; 2; 1] (fun l => cdelta (nth 1 l 0) (nth 2 l 0)).
Lemma i_mat : forall n ds, length ds = n -> forall c' (f : list nat -> cx), In c' (configs ds) ->
  EffHamSpec.lsum cx c0 cadd (configs ds) (fun c => cmul (mpo_mat cx c0 c1 cadd cmul (map csite_of (repeat (i_ws 0) n)) c c' 0 0) (f c)) = f c'.
Proof.
  induction n as [|n IH]; intros [|d ds] L c' f H; try discriminate.
  - destruct H as [<-|[]]. cbn. unfold delta. cbn. ring.
  - cbn [length] in L. injection L as L. cbn [configs] in *. apply in_flat_map in H. destruct H as [s [Hs H]]. apply in_map_iff in H. destruct H as [c1' [<- H]]. apply in_seq in Hs.
    rewrite (lsum_flat cx c0 c1 cadd cmul csub copp cx_ring).
    transitivity (EffHamSpec.lsum cx c0 cadd (seq 0 d) (fun s1 => cmul (cdelta s s1) (f (s1 :: c1')))).
    + apply (lsum_ext cx c0 cadd). intros s1 _. rewrite (lsum_map cx c0 cadd). rewrite <- (IH ds L c1' (fun c => f (s1 :: c)) H), (lsum_mul_l cx c0 c1 cadd cmul csub copp cx_ring).
      apply (lsum_ext cx c0 cadd). intros c _. cbn [repeat map mpo_mat]. cbn [site_of i_ws gd nth mcols FmpsSpec.sumn]. unfold mval at 1. cbn [site_of ent i_ws ge nth]. unfold delta. rewrite (Nat.eqb_sym s1 s). destruct (s =? s1); ring.
    + apply (delta_l cx c0 c1 cadd cmul csub copp cx_ring). lia.
Qed.

Lemma i_energy : forall ts, chain 3 i_ws [2; 2; 2] ts -> energy_val 3 i_ws ts = sq_norm 3 ts.
Proof.
  intros ts [_ HD]. unfold energy_val, sq_norm, EffHamSpec.energy, norm2. rewrite HD. apply (lsum_ext cx c0 cadd). intros c' Hc'.
  transitivity (EffHamSpec.lsum cx c0 cadd (configs [2; 2; 2]) (fun c => cmul (mpo_mat cx c0 c1 cadd cmul (map csite_of (repeat (i_ws 0) 3)) c c' 0 0)
    (cmul (cconj (mps_mat cx c0 c1 cadd cmul (map cten_of (sites 3 ts)) c' 0 0)) (mps_mat cx c0 c1 cadd cmul (map cten_of (sites 3 ts)) c 0 0)))).
  - apply (lsum_ext cx c0 cadd). intros c _. change (sites 3 i_ws) with (repeat (i_ws 0) 3). ring.
  - apply (i_mat 3 [2; 2; 2] eq_refl c' (fun c => cmul (cconj (mps_mat cx c0 c1 cadd cmul (map cten_of (sites 3 ts)) c' 0 0)) (mps_mat cx c0 c1 cadd cmul (map cten_of (sites 3 ts)) c 0 0)) Hc').
Qed.
Lemma i_herm : hermitian_chain 3 i_ws [2; 2; 2].
Proof.
  unfold hermitian_chain. unfold sites. rewrite map_map. apply (entries_hermitian 3 (fun i => csite_of (i_ws i))).
  intros i x y s s'. unfold mval. cbn [site_of ent i_ws ge nth]. unfold delta. rewrite (Nat.eqb_sym s'). destruct (s =? s'); symmetry; [apply cconj1|apply cconj0].
Qed.
Lemma i_chain : chain 3 i_ws [2; 2; 2] z_ts.
Proof. split; [|reflexivity]. split; [|split; cbn; auto]. repeat constructor; repeat eexists. Qed.
