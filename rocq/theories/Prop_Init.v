(** Initial product states.  C44. *)
From Coq Require Import List Arith Lia Bool ZArith.
From Verif Require Import Base MpsInit MpsInitFacts.
Import ListNotations.

Section Props.
Variables (Q : Type) (q0 : Q) (qadd qsub : Q -> Q -> Q) (qopp : Q -> Q).
Hypothesis add_comm : forall a b, qadd a b = qadd b a.
Hypothesis add_assoc : forall a b c, qadd a (qadd b c) = qadd (qadd a b) c.
Hypothesis add_0 : forall a, qadd a q0 = a.
Hypothesis add_opp : forall a, qadd a (qopp a) = q0.
Hypothesis sub_def : forall a b, qsub a b = qadd a (qopp b).
Notation has_qns := (has_qns Q q0). Notation total := (total Q q0 qadd). Notation flux := (flux Q qadd qsub).

(** what is promised of the tensors of a product state: right sites and basis states, bonds match, trivial ends, and the
    divergence is concentrated on the site [at_] *)
Definition product_state (sites : list (index Q)) (labs : list nat) (qs : list Q) (at_ : nat) (ts : list (pten Q)) : Prop :=
  length ts = length sites /\
  (forall t, nth_error ts 0 = Some t -> pl Q t = q0) /\ (forall t, nth_error ts (length sites - 1) = Some t -> pr Q t = q0) /\
  (forall i t t', nth_error ts i = Some t -> nth_error ts (S i) = Some t' -> pr Q t = pl Q t') /\
  (forall i t, nth_error ts i = Some t -> nth_error sites i = Some (pp Q t) /\ nth_error labs i = Some (plab Q t) /\
     flux (pl Q t) (nth i qs q0) (pr Q t) = if i =? at_ then total qs else q0).
Lemma direct_ps z dbg sites labs qs : has_qns sites labs qs -> 2 <= length sites ->
  exists ts, direct_init Q qadd qsub z dbg sites labs = Ok ts /\ product_state sites labs qs (if z then length sites - 1 else 0) ts.
Proof.
  intros H HN. eexists. split; [apply (direct_form Q q0 qadd qsub qopp); eauto|]. assert (HL : length labs = length sites) by apply H. set (N := length sites) in *.
  repeat split.
  - rewrite map_length, seq_length. auto.
  - intros t Ht. apply nth_map_seq0 in Ht. destruct Ht as [Hi ->]. auto.
  - intros t Ht. apply nth_map_seq0 in Ht. destruct Ht as [Hi ->]. cbn [pr pten_at]. fold N. destruct (Nat.eqb_spec (S (N - 1)) N); [auto|lia].
  - intros i t t' Ht Ht'. apply nth_map_seq0 in Ht, Ht'. destruct Ht as [Hi ->], Ht' as [Hi' ->]. cbn [pl pr pten_at]. fold N. change (S i =? 0) with false. destruct (Nat.eqb_spec (S i) N); [lia|auto].
  - apply nth_map_seq0 in H0. destruct H0 as [Hi ->]. cbn [pp pten_at]. apply nth_error_nth'. auto.
  - apply nth_map_seq0 in H0. destruct H0 as [Hi ->]. cbn [plab pten_at]. apply nth_error_nth'. lia.
  - apply nth_map_seq0 in H0. destruct H0 as [Hi ->]. rewrite (flux_at Q q0 qadd qsub qopp) by auto. fold N. destruct z; [|auto].
    destruct (Nat.eqb_spec (S i) N), (Nat.eqb_spec i (N - 1)); auto; lia.
Qed.
Theorem C44_product_state dbg sites labs qs : has_qns sites labs qs -> 2 <= length sites ->
  exists ts, direct_init Q qadd qsub false dbg sites labs = Ok ts /\ product_state sites labs qs 0 ts.
Proof. exact (direct_ps false dbg sites labs qs). Qed.
(** DirectStateInitZeroDivMps: the whole divergence sits on the last tensor *)
Theorem C44_product_state_last dbg sites labs qs : has_qns sites labs qs -> 2 <= length sites ->
  exists ts, direct_init Q qadd qsub true dbg sites labs = Ok ts /\ product_state sites labs qs (length sites - 1) ts.
Proof. exact (direct_ps true dbg sites labs qs). Qed.
(** a label list of another length is caught in a debug build; when it is too short a release build runs out of bounds *)
Theorem C44_wrong_length z dbg sites labs : length labs < length sites -> direct_init Q qadd qsub z dbg sites labs = if dbg then Abort else Ub.
Proof.
  intros H. unfold direct_init. destruct (Nat.eqb_spec (length sites) (length labs)) as [|HNE]; [lia|]. destruct dbg; cbn [assert_ bind]; [auto|].
  assert (X : div_loop Q qadd sites labs = Ub); [|rewrite X; auto].
  assert (V : forall i, length labs <= i -> vget labs i = Ub) by (intros i Hi; unfold vget; rewrite (proj2 (nth_error_None labs i) Hi); auto).
  assert (G : forall ix c, (exists q, sector_at Q ix c = Ok q) \/ sector_at Q ix c = Ub) by (intros ix; induction ix as [|[q d] ix IH]; intros c; cbn [sector_at]; [auto|]; destruct (c <? d); [left; exists q; auto|apply IH]).
  unfold div_loop. destruct (vget_ok _ sites 0) as (p & E & _); [lia|]. rewrite E. cbn [bind]. destruct labs as [|l labs]; [auto|]. change (vget (l :: labs) 0) with (Ok l). cbn [bind].
  destruct (G p l) as [[q Eq]|Eq]; rewrite Eq; cbn [bind]; [|auto].
  assert (L : forall n s d, s <= length (l :: labs) -> length (l :: labs) < s + n -> s + n <= length sites ->
    for_loop s n (fun i d => let! p := vget sites i in let! l0 := vget (l :: labs) i in let! q := sector_at Q p l0 in Ok (qadd d q)) d = Ub).
  { induction n as [|n IH]; intros s d H1 H2 H3; [lia|]. cbn [for_loop]. destruct (vget_ok _ sites s) as (p' & E' & _); [lia|]. rewrite E'. cbn [bind].
    destruct (Nat.eq_dec s (length (l :: labs))) as [->|NE]; [rewrite V by auto; auto|]. destruct (vget_ok _ (l :: labs) s) as (l' & El & _); [lia|]. rewrite El. cbn [bind].
    destruct (G p' l') as [[q' Eq']|Eq']; rewrite Eq'; cbn [bind]; [|auto]. apply IH; lia. }
  apply L; cbn [length] in *; lia.
Qed.

(** ** Random states around several product states *)
Notation allowed := (allowed Q qadd qsub).
Theorem C44_extended dbg sites labss qss dim : Forall2 (has_qns sites) labss qss -> labss <> [] -> 0 < dim -> 2 <= length sites ->
  exists ts, ext_init Q qadd qsub dbg sites labss dim = Ok ts /\ length ts = length sites /\
    (** trivial ends, matching bonds *)
    (forall t, nth_error ts 0 = Some t -> tl Q t = [(q0, 1)]) /\ (forall t, nth_error ts (length sites - 1) = Some t -> tr Q t = [(q0, 1)]) /\
    (forall i t t', nth_error ts i = Some t -> nth_error ts (S i) = Some t' -> tr Q t = tl Q t') /\
    (** every component has the total of the first configuration *)
    (forall s b, allowed ts s b -> b 0 = q0 -> b (length sites) = q0 -> psum Q q0 qadd (map s (seq 0 (length sites))) (length sites) = total (nth 0 qss [])) /\
    (** and a given configuration is a component if it has that total; else its own path is not there *)
    (forall j qs, nth_error qss j = Some qs -> total qs = total (nth 0 qss []) ->
       exists b, b 0 = q0 /\ b (length sites) = q0 /\ (forall i t, nth_error ts i = Some t -> bond_has Q (tl Q t) (b i) /\ bond_has Q (tr Q t) (b (S i))) /\
         allowed ts (fun i => nth i qs q0) b) /\
    (forall j qs, nth_error qss j = Some qs -> total qs <> total (nth 0 qss []) ->
       forall b, b 0 = q0 -> b (length sites) = q0 -> ~ allowed ts (fun i => nth i qs q0) b).
Proof.
  intros HF NE HD HN. eexists. split; [apply (ext_form Q q0 qadd qsub qopp); eauto|]. set (N := length sites) in *.
  split; [rewrite map_length, seq_length; auto|]. split; [|split; [|split; [|split; [|split]]]].
  - intros t Ht. apply nth_map_seq0 in Ht. destruct Ht as [Hi ->]. auto.
  - intros t Ht. apply nth_map_seq0 in Ht. destruct Ht as [Hi ->]. cbn [tr rten_at]. fold N. destruct (Nat.eqb_spec (S (N - 1)) N); [auto|lia].
  - intros i t t' Ht Ht'. apply nth_map_seq0 in Ht, Ht'. destruct Ht as [Hi ->], Ht' as [Hi' ->]. cbn [tl tr rten_at]. fold N. change (S i =? 0) with false. destruct (Nat.eqb_spec (S i) N); [lia|auto].
  - intros s b HA B0 BN. apply (ext_total Q q0 qadd qsub qopp) with (dim := dim) (b := b); auto.
  - intros j qs HJ HT. destruct (ext_member Q q0 qadd qsub qopp add_comm add_assoc add_0 add_opp sub_def sites labss qss dim j qs HF HN HJ) as [M1 M2].
    eexists. split; [|split; [|split; [exact M1|apply M2; exact HT]]]; cbv beta; [auto|]. fold N. rewrite Nat.eqb_refl, orb_true_r. auto.
  - intros j qs HJ HT b B0 BN HA. apply HT. assert (X := ext_total Q q0 qadd qsub qopp add_comm add_assoc add_0 add_opp sub_def sites qss dim _ b HN HA B0 BN). rewrite <- X.
    assert (HQ : length qs = N). { assert (Y : Forall (fun qs => length qs = N) qss) by (clear - HF; induction HF as [|a c l l' (A & B & C)]; constructor; auto). rewrite Forall_forall in Y. apply Y. apply (nth_error_In _ _ HJ). }
    unfold MpsInitFacts.total. rewrite HQ. fold N. f_equal. rewrite <- HQ. clear. apply nth_ext with q0 q0; [rewrite map_length, seq_length; auto|]. intros n Hn. rewrite (nth_indep (map _ _) q0 (nth 0 qs q0)) by (rewrite map_length, seq_length; auto).
    rewrite (map_nth (fun i => nth i qs q0)), seq_nth by auto. auto.
Qed.
End Props.

(** ** Instances: Sz of spin-1/2 sites *)
Definition ini_half : index Z := [(1%Z, 1); ((-1)%Z, 1)].
Example C44_example : has_qns Z 0%Z [ini_half; ini_half; ini_half; ini_half] [0; 1; 0; 0] [1; -1; 1; 1]%Z /\
  direct_init Z Z.add Z.sub false true [ini_half; ini_half; ini_half; ini_half] [0; 1; 0; 0] =
    Ok [mkPten Z 0%Z ini_half 0 1%Z; mkPten Z 1%Z ini_half 1 2%Z; mkPten Z 2%Z ini_half 0 1%Z; mkPten Z 1%Z ini_half 0 0%Z].
Proof.
  split; [|reflexivity]. split; [auto|]. split; [auto|]. intros i p l H1 H2. do 4 (destruct i as [|i]; [cbn in H1, H2 |- *; injection H1 as <-; injection H2 as <-; reflexivity|]). destruct i; discriminate.
Qed.
(** The comment of DirectStateInitZeroDivMps ("every tensor has 0-flux") does not hold when the total is not zero. *)
Theorem C44_zero_div_refuted : exists sites labs qs ts, has_qns Z 0%Z sites labs qs /\ direct_init Z Z.add Z.sub true true sites labs = Ok ts /\
  exists i t, nth_error ts i = Some t /\ flux Z Z.add Z.sub (pl Z t) (nth i qs 0%Z) (pr Z t) <> 0%Z.
Proof.
  exists [ini_half; ini_half], [0; 0], [1; 1]%Z. eexists. split; [|split; [reflexivity|]].
  - split; [auto|]. split; [auto|]. intros i p l H1 H2. do 2 (destruct i as [|i]; [cbn in H1, H2 |- *; injection H1 as <-; injection H2 as <-; reflexivity|]). destruct i; discriminate.
  - exists 1. eexists. split; [reflexivity|]. cbn. discriminate.
Qed.
(** On one site the extended initialisation gives a left bond that is not trivial. *)
Theorem C44_single_site_refuted : exists sites labss t, ext_init Z Z.add Z.sub true sites labss 1 = Ok [t] /\ tl Z t <> [(0%Z, 1)].
Proof. exists [ini_half], [[0]; [1]]. eexists. split; [reflexivity|]. cbn. discriminate. Qed.
(** a state around two configurations of equal total, and one around two of different total *)
Example C44_extended_example : Forall2 (has_qns Z 0%Z [ini_half; ini_half; ini_half]) [[0; 1; 0]; [1; 0; 0]] [[1; -1; 1]; [-1; 1; 1]]%Z /\
  ext_init Z Z.add Z.sub true [ini_half; ini_half; ini_half] [[0; 1; 0]; [1; 0; 0]] 2 =
   Ok [mkRten Z [(0%Z, 1)] ini_half [(0%Z, 2); (2%Z, 2)] 1%Z; mkRten Z [(0%Z, 2); (2%Z, 2)] ini_half [(1%Z, 2); (1%Z, 2)] 0%Z; mkRten Z [(1%Z, 2); (1%Z, 2)] ini_half [(0%Z, 1)] 0%Z].
Proof.
  split; [|reflexivity]. repeat constructor; intros i p l H1 H2; do 3 (destruct i as [|i]; [cbn in H1, H2 |- *; injection H1 as <-; injection H2 as <-; reflexivity|]); destruct i; discriminate.
Qed.
Print Assumptions C44_product_state.
Print Assumptions C44_product_state_last.
Print Assumptions C44_wrong_length.
Print Assumptions C44_extended.
Print Assumptions C44_zero_div_refuted.
Print Assumptions C44_single_site_refuted.
