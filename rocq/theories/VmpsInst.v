(** The chain of EffHamInst.v as tensors with legs. *)
From Coq Require Import List Arith Lia Bool ZArith.
From Verif Require Import Base FiniteMps FmpsSpec FmpsFacts FmpsInst EffHam EffHamSpec EffHamFacts EffHamInst FinMpo FinMpoSpec Legs VmpsLocal VmpsSpec VmpsEnv VmpsHeff VmpsShift VmpsState VmpsTasks.
Import ListNotations.
Local Open Scope nat_scope.

Definition v_of (t : ten Z) : gten Z := mkG Z [d0 t; d1 t; d2 t] (fun l => el t (nth 0 l 0) (nth 1 l 0) (nth 2 l 0)).
Definition v_mpo (w : mposite Z) : gten Z := mkG Z [mrows w; 2; 2; mcols w] (fun l => mval Z 0%Z w (nth 0 l 0) (nth 3 l 0) (nth 1 l 0) (nth 2 l 0)).
Definition v_ts : list (gten Z) := map v_of e_ts.
Definition v_ws : list (gten Z) := map v_mpo e_ws.
Definition v_t (i : nat) : gten Z := nth i v_ts (mkG Z [] (fun _ => 0%Z)).
Definition v_w (i : nat) : gten Z := nth i v_ws (mkG Z [] (fun _ => 0%Z)).
Notation v_lenvs := (lenvs_from Z 0%Z Z.add Z.mul zconj (trivial_env Z 0%Z 1%Z 1 1)).
Notation v_renvs := (renvs_from Z 0%Z Z.add Z.mul zconj (trivial_env Z 0%Z 1%Z 1 1)).
Ltac v_part := split; [repeat constructor; repeat eexists|split; cbn; auto].
Lemma v_cut2 : cut2 Z (firstn 1 v_ts) (skipn 3 v_ts) (firstn 1 v_ws) (skipn 3 v_ws) (v_w 1) (v_w 2) 2 2 2 2.
Proof. constructor. exists 3, 3, 3. split; [reflexivity|]. split; [reflexivity|]. split; v_part. Qed.
Lemma v_cut1 : cut1 Z (firstn 1 v_ts) (skipn 2 v_ts) (firstn 1 v_ws) (skipn 2 v_ws) (v_w 1) 2 2 3.
Proof. constructor. exists 3, 3. split; [reflexivity|]. split; v_part. Qed.
Definition v_energy2 (i : nat) : res Z :=
  let! l := v_lenvs (firstn i v_ts) (firstn i v_ws) in let! r := v_renvs (skipn (i + 2) v_ts) (skipn (i + 2) v_ws) in
  energy2 Z 0%Z Z.add Z.mul zconj l (v_w i) (v_w (i + 1)) r (v_t i) (v_t (i + 1)).
Definition v_energy1 (i : nat) : res Z :=
  let! l := v_lenvs (firstn i v_ts) (firstn i v_ws) in let! r := v_renvs (skipn (i + 1) v_ts) (skipn (i + 1) v_ws) in
  energy1 Z 0%Z Z.add Z.mul zconj l (v_w i) r (v_t i).
Lemma v_energies : exists v, (0 < Z.abs v)%Z /\ map v_energy2 [0; 1] = [Ok v; Ok v] /\ map v_energy1 [1; 2] = [Ok v; Ok v] /\
  map e_val [0; 1; 2] = [Ok v; Ok v; Ok v].
Proof. eexists. split; [|split; [vm_compute; reflexivity|split; vm_compute; reflexivity]]. vm_compute. reflexivity. Qed.
Lemma v_same : Forall2 (fun pg w => same_mpo Z 0%Z (fst pg) (snd pg) w) (combine [2; 2; 2; 2] v_ws) e_ws.
Proof. repeat (constructor; [split; [reflexivity|intros; reflexivity]|]). constructor. Qed.

(** noise at site 1 *)
Definition v_l1 : gten Z := match v_lenvs (firstn 1 v_ts) (firstn 1 v_ws) with Ok l => l | _ => v_t 9 end.
Definition v_r1 : gten Z := match v_renvs (skipn 2 v_ts) (skipn 2 v_ws) with Ok l => l | _ => v_t 9 end.
Definition v_r2 : gten Z := match v_renvs (skipn 3 v_ts) (skipn 3 v_ws) with Ok l => l | _ => v_t 9 end.
Definition v_x : gten Z := mkG Z [2; 2; 2; 2] (fun l => e_x (nth 0 l 0) (nth 1 l 0) (nth 2 l 0) (nth 3 l 0)).
Lemma v_state : state_on Z [2; 2; 2; 2] (map (ten_of Z) v_ts).
Proof. split; cbn; auto. Qed.
Definition v_ok {A} (r : res A) (P : A -> Prop) : Prop := match r with Ok a => P a | _ => False end.
Lemma v_ok2 : forall A B (r : res (A * B)) (P : A -> B -> Prop), v_ok r (fun p => P (fst p) (snd p)) -> exists a b, r = Ok (a, b) /\ P a b.
Proof. intros A B [[a b]| |] P H; [exists a, b; auto|destruct H|destruct H]. Qed.
Definition v_big (ds : list nat) (i : list nat) (p : gten Z * gten Z) : Prop := gd Z (fst p) = ds /\ Z.eqb (ge Z (fst p) i) 0%Z = false.
Lemma v_big_ok : forall ds i r, v_ok r (v_big ds i) -> exists a b, r = Ok (a, b) /\ gd Z a = ds /\ ge Z a i <> 0%Z.
Proof. intros ds i [[a b]| |] H; [|destruct H|destruct H]. destruct H as [H1 H2]. exists a, b. split; [auto|]. split; [auto|]. apply Z.eqb_neq. exact H2. Qed.
Lemma v_noise_1r : exists a b, expand1_r Z 0%Z Z.add Z.mul v_l1 (v_w 1) (v_t 1) (v_t 2) 5%Z = Ok (a, b) /\ gd Z a = [2; 2; 12] /\ ge Z a [0; 0; 4] <> 0%Z.
Proof. apply v_big_ok. vm_compute. split; reflexivity. Qed.
Lemma v_noise_1l : exists a b, expand1_l Z 0%Z Z.add Z.mul (v_w 1) v_r1 (v_t 1) (v_t 0) 5%Z = Ok (a, b) /\ gd Z a = [8; 2; 3] /\ ge Z a [4; 0; 0] <> 0%Z.
Proof. apply v_big_ok. vm_compute. split; reflexivity. Qed.
Lemma v_noise_2r : exists a b, expand2_r Z 0%Z Z.add Z.mul (fun t => t) true v_l1 (v_w 1) (v_w 2) v_x (v_t 3) 5%Z = Ok (a, b) /\ gd Z a = [2; 2; 2; 8] /\ ge Z a [0; 0; 0; 3] <> 0%Z.
Proof. apply v_big_ok. vm_compute. split; reflexivity. Qed.
Lemma v_noise_2l : exists a b, expand2_l Z 0%Z Z.add Z.mul (v_w 1) (v_w 2) v_r2 v_x (v_t 0) 5%Z = Ok (a, b) /\ gd Z a = [8; 2; 2; 2] /\ ge Z a [4; 0; 0; 0] <> 0%Z.
Proof. apply v_big_ok. vm_compute. split; reflexivity. Qed.
(** an exact decomposition: first factor and middle factor identities *)
Fixpoint v_flat (ds l : list nat) : nat := match ds, l with d :: ds, i :: l => i * fold_right Nat.mul 1 ds + v_flat ds l | _, _ => 0 end.
Fixpoint v_unflat (ds : list nat) (k : nat) : list nat := match ds with [] => [] | d :: ds => let q := fold_right Nat.mul 1 ds in (k / q) :: v_unflat ds (k mod q) end.
Definition v_delta (i j : nat) : Z := if i =? j then 1%Z else 0%Z.
Definition v_svd (n : nat) (x : gten Z) : gten Z * gten Z * gten Z :=
  let dl := firstn n (gd Z x) in let K := fold_right Nat.mul 1 dl in
  (mkG Z (dl ++ [K]) (fun l => v_delta (v_flat dl l) (nth n l 0)), mkG Z [K; K] (fun l => v_delta (nth 0 l 0) (nth 1 l 0)),
   mkG Z (K :: skipn n (gd Z x)) (fun l => ge Z x (v_unflat dl (nth 0 l 0) ++ skipn 1 l))).
Lemma v_factors_check : forall n x, n <= length (gd Z x) ->
  forallb (fun l => Z.eqb (ge Z x l) (let '(u, s, vt) := v_svd n x in sumn Z 0%Z Z.add (fold_right Nat.mul 1 (firstn n (gd Z x))) (fun k => sumn Z 0%Z Z.add (fold_right Nat.mul 1 (firstn n (gd Z x)))
    (fun m => (ge Z u (firstn n l ++ [k]) * ge Z s [k; m] * ge Z vt (m :: skipn n l))%Z)))) (configs (gd Z x)) = true -> factors Z 0%Z Z.add Z.mul v_svd n x x.
Proof.
  intros n x Hn H. split; [reflexivity|]. cbv [v_svd]. eexists. eexists. split; [reflexivity|]. split; [reflexivity|]. split; [reflexivity|].
  intros i j Hi Hin. rewrite forallb_forall in H. specialize (H _ Hin). apply Z.eqb_eq in H. cbv [v_svd] in H. rewrite H.
  rewrite firstn_app, skipn_app, Hi, Nat.sub_diag, firstn_O, skipn_O, app_nil_r. rewrite <- Hi, firstn_all, skipn_all. reflexivity.
Qed.
Lemma v_factors : factors Z 0%Z Z.add Z.mul v_svd 2 v_x v_x /\ factors Z 0%Z Z.add Z.mul v_svd 2 (v_t 1) (v_t 1) /\ factors Z 0%Z Z.add Z.mul v_svd 1 (v_t 1) (v_t 1).
Proof. split; [|split]; (apply v_factors_check; [cbn; lia|vm_compute; reflexivity]). Qed.
Lemma v_split : exists a b, split2 Z 0%Z Z.add Z.mul v_svd true v_x = Ok (a, b) /\ gd Z a = [2; 2; 4] /\ Z.eqb (ge Z b [3; 1; 1]) 0%Z = false.
Proof. apply v_ok2. vm_compute. split; reflexivity. Qed.
(** tasks: sectors of the three states of a bond, taken in another order, by two workers *)
Lemma v_tasks : exists e e1, (let! e := update_lenv Z 0%Z Z.add Z.mul zconj v_l1 (v_t 1) (v_w 1) in let! e1 := mpi_lenv Z 0%Z Z.add Z.mul zconj v_l1 (v_t 1) (v_w 1) [(1, 2); (0, 1)] in Ok (e, e1)) = Ok (e, e1) /\
  Z.eqb (ge Z e1 [0; 1; 2]) (ge Z e [0; 1; 2]) = true /\ Z.eqb (ge Z e [0; 1; 2]) 0%Z = false.
Proof. apply v_ok2. vm_compute. split; reflexivity. Qed.
Lemma v_sectors : sectors 0 [1; 2] = [(0, 1); (1, 2)].
Proof. reflexivity. Qed.
