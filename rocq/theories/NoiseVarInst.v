(** Concrete cases for the theorems on noised two-site VMPS. *)
From Coq Require Import List Arith Bool Lia QArith Qreals Reals Lra Ring_theory.
From Verif Require Import Base Disk SweepSpec NoiseSpec Noise NoiseFacts VmpsInitFacts FiniteMps FmpsSpec EffHam EffHamSpec ChainSpec Legs VmpsLocal VmpsSpec Cx GVec ChainUpdate DmrgVarSpec DmrgVarInst ConserveSpec ConserveInst SingleUpdate SingleVarSpec SingleVarInst NoiseUpdate NoiseVarSpec.
Import ListNotations.
Local Open Scope nat_scope.

Lemma y_mock : mock_legs (fun t => t).
Proof. intros t a b c d H. exists a. exact H. Qed.
Lemma y_thin : thin_qr y_qr.
Proof. intros x a p b E K. unfold y_qr. rewrite E. cbn. intros H. injection H as <-. lia. Qed.
Lemma y_opts3 : forall al dec inc mx N ws size svd close covered normal mock bs s, opts3_lapack al dec inc mx N ws stev2 2 size svd close covered normal mock bs s.
Proof. intros al dec inc mx N ws size svd close covered normal mock bs. induction bs as [|b bs IH]; intros s; cbn [opts3_lapack]; [exact I|]. split; [|apply IH]. intros el a b' er x _ _ _ _ _. apply y_eig. Qed.
Lemma y_sweeps3 : forall al dec inc mx N ws size svd close covered normal mock preset lb rb n k0 s, sweeps3_lapack al dec inc mx N ws stev2 2 size svd close covered normal mock preset lb rb n k0 s.
Proof.
  intros al dec inc mx N ws size svd close covered normal mock preset lb rb n. induction n as [|n IH]; intros k0 s; cbn [sweeps3_lapack]; [exact I|].
  destruct (match preset k0 with Some x => Some x | None => option_map s_carry (snd s) end); [|exact I]. split; [apply y_opts3|apply IH].
Qed.
Lemma z_right : forall j, 1 < j < 3 -> cright (cten_of (z_ts j)).
Proof. intros j Hj. destruct z_center as [_ H]. apply H. lia. Qed.
Lemma z_mixed : mixed_at 3 0 z_ts.
Proof. destruct z_center as [_ H]. split; intros i Hi; [lia|]. apply H. lia. Qed.
