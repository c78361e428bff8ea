(** A concrete chain: four sites, integer tensors, the Hamiltonian sum_i (z_i z_(i+1) + 3 x_i). *)
From Coq Require Import List Arith Lia Bool ZArith.
From Verif Require Import Base FiniteMps FmpsSpec FmpsFacts FmpsInst EffHam EffHamSpec EffHamFacts.
Import ListNotations.
Local Open Scope nat_scope.

Definition eI : op2 Z := fun s s' => if s =? s' then 1%Z else 0%Z.
Definition eX : op2 Z := fun s s' => if s =? s' then 0%Z else 3%Z.
Definition eZ : op2 Z := fun s s' => if s =? s' then (if s =? 0 then 1%Z else (-1)%Z) else 0%Z.
(** rows and columns: 0 = done, 1 = waiting for a second z, 2 = not started *)
Definition eW : mposite Z := mkMpo Z 3 3 (fun i j => match i, j with 0, 0 => Some eI | 1, 0 => Some eZ | 2, 0 => Some eX | 2, 1 => Some eZ | 2, 2 => Some eI | _, _ => None end).
Definition eW0 : mposite Z := mkMpo Z 1 3 (fun _ j => ent eW 2 j).
Definition eW3 : mposite Z := mkMpo Z 3 1 (fun i _ => ent eW i 0).
Definition e_ts : list (ten Z) := [zt 1 2 2 1; zt 2 2 3 3; zt 3 2 2 (-1); zt 2 2 1 2].
Definition e_ws : list (mposite Z) := [eW0; eW; eW; eW3].
Lemma e_cut : cut Z (firstn 1 e_ts) (skipn 3 e_ts) (firstn 1 e_ws) eW eW (skipn 3 e_ws) 2 2.
Proof.
  constructor; cbn; auto; try lia.
  split; repeat constructor; intros i Hi; cbn in *; (do 3 (destruct i as [|i]; [first [solve [exists 0; split; [lia|discriminate]] | solve [exists 2; split; [lia|discriminate]]]|])); lia.
Qed.
Lemma e_cut0 : cut Z [] (skipn 2 e_ts) [] eW0 eW (skipn 2 e_ws) 1 3.
Proof.
  constructor; cbn; auto; try lia.
  split; repeat constructor; intros i Hi; cbn in *; (do 3 (destruct i as [|i]; [first [solve [exists 0; split; [lia|discriminate]] | solve [exists 2; split; [lia|discriminate]]]|])); lia.
Qed.
Definition e_x : t4 Z := two_site Z 0%Z Z.add Z.mul (nth 1 e_ts (zt 0 0 0 0)) (nth 2 e_ts (zt 0 0 0 0)).
Definition e_val (l : nat) : res Z :=
  let t1 := nth l e_ts (zt 0 0 0 0) in let t2 := nth (l + 1) e_ts (zt 0 0 0 0) in
  let x := two_site Z 0%Z Z.add Z.mul t1 t2 in
  let! gl := left_ops Z 0%Z Z.add Z.mul zconj (triv_group Z 1%Z) (firstn l e_ts) (firstn l e_ws) in
  let! gr := right_ops Z 0%Z 1%Z Z.add Z.mul zconj (skipn (l + 2) e_ts) (skipn (l + 2) e_ws) in
  let! y := eff_mul Z 0%Z Z.add Z.mul gl gr (nth l e_ws eW) (nth (l + 1) e_ws eW) (d0 t1) 2 2 (d2 t2) x in
  Ok (dot4 Z 0%Z Z.add Z.mul zconj (d0 t1) 2 2 (d2 t2) x y).
Lemma e_all_cuts : exists v, (0 < Z.abs v)%Z /\ map e_val [0; 1; 2] = [Ok v; Ok v; Ok v] /\ energy Z 0%Z 1%Z Z.add Z.mul zconj e_ts e_ws = v.
Proof. eexists. split; [|split; [vm_compute; reflexivity|vm_compute; reflexivity]]. vm_compute. reflexivity. Qed.
(** a column without elements *)
Definition eWbad : mposite Z := mkMpo Z 1 2 (fun _ j => match j with 0 => Some eI | _ => None end).
Lemma e_unused : grow_left Z 0%Z Z.add Z.mul zconj (triv_group Z 1%Z) (zt 1 2 2 1) eWbad = Ub.
Proof. reflexivity. Qed.
(** the last two sites with the inner bond relabelled and rescaled: same amplitudes, other tensors *)
Definition e_swap : list (ten Z) :=
  [mkTen 3 2 2 (fun l s r => if r =? 0 then el (zt 3 2 2 (-1)) l s 1 else (- el (zt 3 2 2 (-1)) l s 0)%Z); mkTen 2 2 1 (fun l s r => if l =? 0 then el (zt 2 2 1 2) 1 s r else (- el (zt 2 2 1 2) 0 s r)%Z)].
Lemma e_gauge : let ts := skipn 2 e_ts in fit Z 3 ts 1 /\ fit Z 3 e_swap 1 /\ wfit Z 3 (skipn 2 e_ws) 1 /\ Forall (rows_used Z) (skipn 2 e_ws) /\ map (@d1 Z) e_swap = map (@d1 Z) ts /\
  (forall c a, In c (configs (map (@d1 Z) ts)) -> a < 3 -> mps_mat Z 0%Z 1%Z Z.add Z.mul e_swap c a 0 = mps_mat Z 0%Z 1%Z Z.add Z.mul ts c a 0) /\
  el (nth 0 e_swap (zt 0 0 0 0)) 0 0 0 <> el (nth 0 ts (zt 0 0 0 0)) 0 0 0.
Proof.
  cbv zeta. split; [cbn; auto|]. split; [cbn; auto|]. split; [cbn; auto|]. split; [|split; [reflexivity|split; [|vm_compute; discriminate]]].
  - repeat constructor; intros i Hi; cbn in *; (do 3 (destruct i as [|i]; [solve [exists 0; split; [lia|discriminate]]|])); lia.
  - assert (H : forallb (fun c => forallb (fun a => Z.eqb (mps_mat Z 0%Z 1%Z Z.add Z.mul e_swap c a 0) (mps_mat Z 0%Z 1%Z Z.add Z.mul (skipn 2 e_ts) c a 0)) (seq 0 3)) (configs (map (@d1 Z) (skipn 2 e_ts))) = true) by (vm_compute; reflexivity).
    intros c a Hc Ha. rewrite forallb_forall in H. specialize (H c Hc). rewrite forallb_forall in H. apply Z.eqb_eq, H, in_seq. lia.
Qed.
