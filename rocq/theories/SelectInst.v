(** Selection rules for the hopping model of [SectorInst]: particles created on the empty state. *)
From Coq Require Import List Arith Bool Lia ZArith Reals Lra.
From Verif Require Import Base Disk SweepSpec Tdvp TdvpSpec FmpsSpec EffHamSpec ChainSpec Legs VmpsSpec Cx DmrgStep GVec ChainUpdate DmrgVarSpec DmrgVarInst ConserveSpec ConserveInst CorrUpdate CorrSpec CorrChain CorrRun SectorSpec SectorInst SelectSpec.
Import ListNotations.
Local Open Scope nat_scope.

(** creation of a particle, the sign of the particles before it *)
Definition s_plus : cg := mkG cx [2; 2] (fun l => if (nth 0 l 0 =? 0) && (nth 1 l 0 =? 1) then c1 else c0).
Definition s_sign : cg := mkG cx [2; 2] (fun l => if nth 0 l 0 =? nth 1 l 0 then (if nth 0 l 0 =? 0 then c1 else copp c1) else c0).
Lemma s_plus_shifts : forall i, shifts Z Z.add z_ch 2 i (op_of s_plus) 1%Z.
Proof. intros i s s' Hs Hs' HN. unfold op_of in HN. cbn [s_plus ge nth] in HN. destruct ((s =? 0) && (s' =? 1)) eqn:B; [|congruence]. apply andb_prop in B. rewrite !Nat.eqb_eq in B. destruct B as [-> ->]. reflexivity. Qed.
Lemma s_sign_neutral : forall i, neutral Z z_ch 2 i (str_of (Some s_sign)).
Proof. intros i j s s' Hj Hs Hs' HN. unfold op_of in HN. cbn [s_sign ge nth] in HN. destruct (Nat.eqb_spec s s') as [->|]; [reflexivity|congruence]. Qed.
Definition s_ta (i : nat) : cg := match acted (res cg) (t_act s_plus) (Some (t_act s_sign)) 1 (fun i => Ok (h_ts h_vac i)) i with Ok t => t | _ => h_ts h_vac i end.
Lemma s_norm : sq_norm 3 s_ta = c1.
Proof. unfold sq_norm, norm2. cbn -[cadd cmul cconj c0 c1 copp]. unfold delta. cbn -[cadd cmul cconj c0 c1 copp]. repeat (rewrite ?cconj_mul, ?cconj_add, ?cconj0, ?cconj1). ring. Qed.
Lemma s_weight : weight [2; 2; 2] (capplied [2; 2; 2] (cstring 3 (str_of (Some s_sign)) (op_of s_plus) 1) (amp 3 (h_ts h_vac))) <> c0.
Proof.
  destruct (acted_ok 3 h_ws 2 [2; 2; 2] eq_refl s_plus (Some s_sign) eq_refl eq_refl 1 (fun i => Ok (h_ts h_vac i)) (h_ts h_vac) ltac:(lia) (fun i _ => eq_refl) (h_chain h_vac)) as [ta [A1 [A2 [_ A4]]]].
  rewrite <- (weight_ext _ _ _ A4), (weight_norm 3 h_ws [2; 2; 2] ta A2).
  assert (E : sq_norm 3 ta = sq_norm 3 s_ta).
  { unfold sq_norm. do 2 f_equal. unfold sites. apply map_ext_in. intros i Hi. apply in_seq in Hi. unfold s_ta. cbn [option_map] in A1. rewrite (A1 i ltac:(lia)). reflexivity. }
  rewrite E, s_norm. unfold c0, c1. intros H. injection H as H. lra.
Qed.
