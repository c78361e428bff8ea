(** Initial states: specification and proofs *)
From Coq Require Import List Arith Lia Bool.
From Verif Require Import Base MpsInit.
Import ListNotations.

Section Facts.
Variables (Q : Type) (q0 : Q) (qadd qsub : Q -> Q -> Q) (qopp : Q -> Q).
Hypothesis add_comm : forall a b, qadd a b = qadd b a.
Hypothesis add_assoc : forall a b c, qadd a (qadd b c) = qadd (qadd a b) c.
Hypothesis add_0 : forall a, qadd a q0 = a.
Hypothesis add_opp : forall a, qadd a (qopp a) = q0.
Hypothesis sub_def : forall a b, qsub a b = qadd a (qopp b).
Notation index := (index Q). Notation sector_at := (sector_at Q).

(** ** Specification *)
(** sum of the first k quantum numbers *)
Fixpoint psum (qs : list Q) (k : nat) : Q := match k with O => q0 | S k => qadd (psum qs k) (nth k qs q0) end.
Definition total (qs : list Q) : Q := psum qs (length qs).
(** [qs] are the quantum numbers of the basis states [labs] of the sites *)
Definition has_qns (sites : list index) (labs : list nat) (qs : list Q) : Prop :=
  length labs = length sites /\ length qs = length sites /\
  forall i p l, nth_error sites i = Some p -> nth_error labs i = Some l -> sector_at p l = Ok (nth i qs q0).
(** divergence of a block: outgoing minus incoming; the left bond is incoming *)
Definition flux (l s r : Q) : Q := qsub (qadd s r) l.
(** blocks of the tensors of a chain along bond quantum numbers [b 0], ..., [b N] and local ones [s 0], ..., [s (N-1)] *)
Definition allowed (ts : list (rten Q)) (s b : nat -> Q) : Prop := forall i t, nth_error ts i = Some t -> flux (b i) (s i) (b (S i)) = tdiv Q t.
Definition bond_has (ix : index) (q : Q) : Prop := In q (map fst ix).

(** ** Proofs *)
Lemma add_0l a : qadd q0 a = a.
Proof. rewrite add_comm. auto. Qed.
Lemma sub_self a : qsub a a = q0.
Proof. rewrite sub_def. auto. Qed.
Lemma sub_add a b : qadd (qsub a b) b = a.
Proof. rewrite sub_def, <- add_assoc, (add_comm (qopp b)), add_opp. auto. Qed.
Lemma add_sub a b : qsub (qadd a b) b = a.
Proof. rewrite sub_def, <- add_assoc, add_opp. auto. Qed.
Lemma cancel a b c : qadd a c = qadd b c -> a = b.
Proof. intros H. rewrite <- (add_sub a c), H. apply add_sub. Qed.
Lemma opp_add a b : qopp (qadd a b) = qadd (qopp a) (qopp b).
Proof.
  apply (cancel _ _ (qadd a b)). rewrite (add_comm (qopp _)), add_opp. rewrite (add_comm (qopp a)), <- add_assoc, (add_assoc (qopp a)), (add_comm (qopp a)), add_opp, add_0l, add_comm, add_opp. auto.
Qed.
Lemma sub_sub a b c : qsub (qsub a b) c = qsub a (qadd b c).
Proof. rewrite !sub_def, opp_add, add_assoc. auto. Qed.
Lemma opp_0 : qopp q0 = q0.
Proof. apply (cancel _ _ q0). rewrite add_comm, add_opp, add_0. auto. Qed.
Lemma sub_0 a : qsub a q0 = a.
Proof. rewrite sub_def, opp_0. auto. Qed.
Lemma sub_opp a b : qadd a (qsub b a) = b.
Proof. rewrite add_comm. apply sub_add. Qed.

Lemma vget_some {A} (l : list A) i x : nth_error l i = Some x -> vget l i = Ok x.
Proof. intros H. unfold vget. rewrite H. auto. Qed.
Lemma qns_at sites labs qs i : has_qns sites labs qs -> i < length sites -> exists p l, nth_error sites i = Some p /\ nth_error labs i = Some l /\ sector_at p l = Ok (nth i qs q0) /\ vget sites i = Ok p /\ vget labs i = Ok l.
Proof.
  intros (A & B & C) H. destruct (nth_error sites i) as [p|] eqn:EP; [|apply nth_error_None in EP; lia]. destruct (nth_error labs i) as [l|] eqn:EL; [|apply nth_error_None in EL; lia].
  exists p, l. repeat split; auto using vget_some.
Qed.
Lemma div_loop_ok sites labs qs : has_qns sites labs qs -> sites <> [] -> div_loop Q qadd sites labs = Ok (total qs).
Proof.
  intros H NE. assert (HN : 0 < length sites) by (destruct sites; [congruence|cbn; lia]). unfold div_loop. destruct (qns_at sites labs qs 0 H HN) as (p & l & _ & _ & E1 & E2 & E3).
  rewrite E2. cbn [bind]. rewrite E3. cbn [bind]. rewrite E1. cbn [bind].
  destruct (for_loop_inv Q (fun i d => d = psum qs i) (fun i d => let! p := vget sites i in let! l := vget labs i in let! q := sector_at p l in Ok (qadd d q)) (length sites - 1) 1 (nth 0 qs q0)) as (d & D1 & D2).
  - cbn [psum]. rewrite add_0l. auto.
  - intros i d Hi Hd. destruct (qns_at sites labs qs i H) as (p' & l' & _ & _ & F1 & F2 & F3); [lia|]. rewrite F2. cbn [bind]. rewrite F3. cbn [bind]. rewrite F1. cbn [bind]. eexists. split; [reflexivity|]. subst d. reflexivity.
  - rewrite D1, D2. unfold total. destruct H as (_ & HL & _). rewrite HL. do 2 f_equal. lia.
Qed.
(** the quantum number on the bond behind k sites *)
Definition behind (zerodiv : bool) (qs : list Q) (k : nat) : Q := qsub (if zerodiv then q0 else total qs) (psum qs k).
Lemma behind_S z qs k : qsub (behind z qs k) (nth k qs q0) = behind z qs (S k).
Proof. unfold behind. rewrite sub_sub. auto. Qed.
Definition pten_at (z : bool) (sites : list index) (labs : list nat) (qs : list Q) (i : nat) : pten Q :=
  mkPten Q (if i =? 0 then q0 else behind z qs i) (nth i sites []) (nth i labs 0) (if S i =? length sites then q0 else behind z qs (S i)).
Lemma direct_form z dbg sites labs qs : has_qns sites labs qs -> 2 <= length sites -> direct_init Q qadd qsub z dbg sites labs = Ok (map (pten_at z sites labs qs) (seq 0 (length sites))).
Proof.
  intros H HN. assert (HL : length labs = length sites) by apply H. unfold direct_init. rewrite HL, Nat.eqb_refl. replace (assert_ dbg true) with (Ok tt) by (destruct dbg; auto). cbn [bind].
  rewrite (div_loop_ok sites labs qs) by (auto; intros ->; cbn in HN; lia). cbn [bind]. rewrite sub_self.
  destruct (qns_at sites labs qs 0 H) as (p & l & N1 & N2 & E1 & E2 & E3); [lia|]. rewrite E2. cbn [bind]. rewrite E3. cbn [bind]. rewrite E1. cbn [bind].
  destruct (for_loop_inv (list (pten Q) * Q) (fun i st => st = (map (pten_at z sites labs qs) (seq 0 i), behind z qs i)) (fun i (st : list (pten Q) * Q) =>
      let (ts, rq) := st in let! p := vget sites i in let! l := vget labs i in let! q := sector_at p l in Ok (ts ++ [mkPten Q rq p l (qsub rq q)], qsub rq q)) (length sites - 2) 1
      ([mkPten Q q0 p l (qsub (if z then q0 else total qs) (nth 0 qs q0))], qsub (if z then q0 else total qs) (nth 0 qs q0))) as (st & D1 & D2).
  - assert (X : qsub (if z then q0 else total qs) (nth 0 qs q0) = behind z qs 1) by (unfold behind; cbn [psum]; rewrite add_0l; auto). rewrite X. cbn [seq map]. do 2 f_equal. unfold pten_at.
    rewrite (nth_error_nth _ _ _ N1), (nth_error_nth _ _ _ N2). change (0 =? 0) with true. cbv iota. destruct (Nat.eqb_spec 1 (length sites)); [lia|auto].
  - intros i st Hi ->. destruct (qns_at sites labs qs i H) as (p' & l' & N1' & N2' & F1 & F2 & F3); [lia|]. rewrite F2. cbn [bind]. rewrite F3. cbn [bind]. rewrite F1. cbn [bind]. eexists. split; [reflexivity|].
    rewrite behind_S, seq_S, map_app. cbn [map Nat.add]. do 3 f_equal. unfold pten_at. rewrite (nth_error_nth _ _ _ N1'), (nth_error_nth _ _ _ N2'). destruct (Nat.eqb_spec i 0); [lia|]. destruct (Nat.eqb_spec (S i) (length sites)); [lia|auto].
  - rewrite D1. cbn [bind]. rewrite D2. destruct (qns_at sites labs qs (length sites - 1) H) as (p' & l' & N1' & N2' & _ & F2 & F3); [lia|]. rewrite F2. cbn [bind]. rewrite F3. cbn [bind]. destruct (Nat.eqb_spec (length sites) 1); [lia|]. f_equal.
    replace (1 + (length sites - 2)) with (length sites - 1) by lia. replace (seq 0 (length sites)) with (seq 0 (length sites - 1) ++ [length sites - 1]) by (rewrite <- seq_S; f_equal; lia).
    rewrite map_app. cbn [map]. do 2 f_equal. unfold pten_at. rewrite (nth_error_nth _ _ _ N1'), (nth_error_nth _ _ _ N2'). destruct (Nat.eqb_spec (length sites - 1) 0); [lia|]. destruct (Nat.eqb_spec (S (length sites - 1)) (length sites)); [auto|lia].
Qed.
Lemma nth_map_seq0 {A} (f : nat -> A) n i x : nth_error (map f (seq 0 n)) i = Some x -> i < n /\ x = f i.
Proof.
  intros H. assert (HI : i < n) by (assert (X : nth_error (map f (seq 0 n)) i <> None) by congruence; apply nth_error_Some in X; rewrite map_length, seq_length in X; auto). split; auto.
  rewrite nth_error_map in H. rewrite (nth_error_nth' _ 0) in H by (rewrite seq_length; auto). rewrite seq_nth in H by auto. cbn in H. congruence.
Qed.
Lemma flux_behind z qs k : flux (behind z qs k) (nth k qs q0) (behind z qs (S k)) = q0.
Proof. unfold flux. rewrite <- behind_S, sub_opp. apply sub_self. Qed.
Lemma flux_at z sites labs qs i : has_qns sites labs qs -> 2 <= length sites -> i < length sites ->
  flux (pl Q (pten_at z sites labs qs i)) (nth i qs q0) (pr Q (pten_at z sites labs qs i)) = if (if z then S i =? length sites else i =? 0) then total qs else q0.
Proof.
  intros H HN HI. destruct H as (_ & HQ & _). cbn [pl pr pten_at]. destruct (Nat.eqb_spec i 0) as [->|N0].
  - replace (1 =? length sites) with false by (symmetry; apply Nat.eqb_neq; lia). unfold flux, behind. cbn [psum]. rewrite add_0l, sub_0, sub_opp. destruct z; auto.
  - destruct (Nat.eqb_spec (S i) (length sites)) as [E|NE].
    + unfold flux. rewrite add_0. assert (X : total qs = qadd (psum qs i) (nth i qs q0)) by (unfold total; rewrite HQ, <- E; auto). unfold behind. destruct z.
      * rewrite X. rewrite !sub_def, add_0l. replace (qopp (qopp (psum qs i))) with (psum qs i); [apply add_comm|]. apply (cancel _ _ (qopp (psum qs i))). rewrite add_opp, add_comm, add_opp. auto.
      * rewrite X, (add_comm (psum qs i)), add_sub. apply sub_self.
    + rewrite flux_behind. destruct z; auto.
Qed.

(** ** Extended states *)
(** all configurations; [qss] their quantum numbers *)
Definition ext_sectors (qss : list (list Q)) (T : Q) (k dim : nat) : index := map (fun qs => (qsub T (psum qs k), dim)) qss.
Lemma sector_jump {A} (f : A -> Q) dim : 0 < dim -> forall (l : list A) j x, nth_error l j = Some x -> sector_at (map (fun a => (f a, dim)) l) (j * dim) = Ok (f x).
Proof.
  intros HD. induction l as [|a l IH]; intros j x H; [destruct j; discriminate|]. destruct j as [|j]; cbn [map MpsInit.sector_at Nat.mul].
  - injection H as <-. destruct (Nat.ltb_spec 0 dim); [auto|lia].
  - destruct (Nat.ltb_spec (dim + j * dim) dim); [lia|]. replace (dim + j * dim - dim) with (j * dim) by lia. apply IH. auto.
Qed.
Lemma next_ok sites labss qss T i dim p lq : Forall2 (has_qns sites) labss qss -> nth_error sites i = Some p ->
  (forall j qs, nth_error qss j = Some qs -> lq j = Ok (qsub T (psum qs i))) ->
  next_sectors Q qsub labss i p lq dim = Ok (ext_sectors qss T (S i) dim).
Proof.
  intros HF HP HL. assert (HLen : length labss = length qss) by (clear - HF; induction HF; cbn; auto).
  destruct (for_loop_inv index (fun j acc => acc = firstn j (ext_sectors qss T (S i) dim)) (fun j acc =>
    let! labs := vget labss j in let! l := vget labs i in let! q := sector_at p l in let! b := lq j in Ok (acc ++ [(qsub b q, dim)])) (length labss) 0 []) as (r & R1 & R2).
  - auto.
  - intros j acc Hj ->. destruct (nth_error labss j) as [labs|] eqn:EL; [|apply nth_error_None in EL; lia]. destruct (nth_error qss j) as [qs|] eqn:EQ; [|apply nth_error_None in EQ; lia].
    assert (HJ : has_qns sites labs qs).
    { clear - HF EL EQ. revert j EL EQ. induction HF as [|a b l l' H0 HF IH]; intros [|j] EL EQ; try discriminate; cbn in EL, EQ; [congruence|eauto]. }
    destruct (qns_at sites labs qs i HJ) as (p' & l' & N1 & N2 & F1 & F2 & F3); [apply nth_error_Some; congruence|]. assert (p' = p) by congruence. subst p'.
    rewrite (vget_some labss j labs EL). cbn [bind]. rewrite F3. cbn [bind]. rewrite F1. cbn [bind]. rewrite (HL j qs EQ). cbn [bind]. eexists. split; [reflexivity|].
    rewrite sub_sub. assert (X : nth_error (ext_sectors qss T (S i) dim) j = Some (qsub T (psum qs (S i)), dim)) by (unfold ext_sectors; rewrite nth_error_map, EQ; auto).
    clear - X. revert X. generalize (ext_sectors qss T (S i) dim) as l. intros l. revert j. induction l as [|a l IH]; intros [|j] X; try discriminate; cbn in X |- *; [injection X as ->; auto|]. f_equal. apply IH. auto.
  - unfold next_sectors. etransitivity; [exact R1|]. rewrite R2. cbn [Nat.add]. f_equal. apply firstn_all2. unfold ext_sectors. rewrite map_length. lia.
Qed.
Definition rten_at (sites : list index) (qss : list (list Q)) (dim i : nat) : rten Q :=
  let T := total (nth 0 qss []) in
  mkRten Q (if i =? 0 then [(q0, 1)] else ext_sectors qss T i dim) (nth i sites []) (if S i =? length sites then [(q0, 1)] else ext_sectors qss T (S i) dim) (if i =? 0 then T else q0).
Lemma ext_form dbg sites labss qss dim : Forall2 (has_qns sites) labss qss -> labss <> [] -> 0 < dim -> 2 <= length sites ->
  ext_init Q qadd qsub dbg sites labss dim = Ok (map (rten_at sites qss dim) (seq 0 (length sites))).
Proof.
  intros HF NE HD HN. destruct labss as [|labs0 labss]; [congruence|]. destruct qss as [|qs0 qss]; [inversion HF|]. assert (H0 : has_qns sites labs0 qs0) by (inversion HF; auto).
  set (T := total qs0). unfold ext_init. change (1 <=? length (labs0 :: labss)) with true. replace (assert_ dbg true) with (Ok tt) by (destruct dbg; auto). cbn [bind]. change (vget (labs0 :: labss) 0) with (Ok labs0). cbn [bind].
  destruct H0 as (HL & HQ & H0). rewrite HL, Nat.eqb_refl. replace (assert_ dbg true) with (Ok tt) by (destruct dbg; auto). cbn [bind].
  rewrite (div_loop_ok sites labs0 qs0) by (try (split; auto); intros ->; cbn in HN; lia). cbn [bind]. fold T. rewrite sub_self.
  destruct (nth_error sites 0) as [p|] eqn:EP; [|apply nth_error_None in EP; lia]. rewrite (vget_some sites 0 p EP). cbn [bind].
  rewrite (next_ok sites (labs0 :: labss) (qs0 :: qss) T 0 dim p) by (auto; intros; cbn [psum]; rewrite sub_0; auto). cbn [bind].
  destruct (for_loop_inv (list (rten Q) * index) (fun i st => st = (map (rten_at sites (qs0 :: qss) dim) (seq 0 i), ext_sectors (qs0 :: qss) T i dim)) (fun i (st : list (rten Q) * index) =>
      let (ts, lvb) := st in let! p := vget sites i in let! rvb := next_sectors Q qsub (labs0 :: labss) i p (fun j => sector_at lvb (j * dim)) dim in
      Ok (ts ++ [mkRten Q lvb p rvb q0], rvb)) (length sites - 2) 1 ([mkRten Q [(q0, 1)] p (ext_sectors (qs0 :: qss) T 1 dim) T], ext_sectors (qs0 :: qss) T 1 dim)) as (st & D1 & D2).
  - cbn [seq map]. do 2 f_equal. unfold rten_at. cbn [nth]. change (0 =? 0) with true. cbv iota. rewrite (nth_error_nth _ _ _ EP). destruct (Nat.eqb_spec 1 (length sites)); [lia|auto].
  - intros i st Hi ->. destruct (nth_error sites i) as [p'|] eqn:EP'; [|apply nth_error_None in EP'; lia]. rewrite (vget_some sites i p' EP'). cbn [bind].
    rewrite (next_ok sites (labs0 :: labss) (qs0 :: qss) T i dim p') by (auto; intros j qs Hj; unfold ext_sectors; apply (sector_jump (fun qs => qsub T (psum qs i)) dim HD); auto). cbn [bind]. eexists. split; [reflexivity|].
    rewrite seq_S, map_app. cbn [map Nat.add]. do 3 f_equal. unfold rten_at. cbn [nth]. fold T. rewrite (nth_error_nth _ _ _ EP'). destruct (Nat.eqb_spec i 0); [lia|]. destruct (Nat.eqb_spec (S i) (length sites)); [lia|auto].
  - rewrite D1. cbn [bind]. rewrite D2. destruct (nth_error sites (length sites - 1)) as [p'|] eqn:EP'; [|apply nth_error_None in EP'; lia]. rewrite (vget_some sites _ p' EP'). cbn [bind]. destruct (Nat.eqb_spec (length sites) 1); [lia|]. f_equal.
    replace (1 + (length sites - 2)) with (length sites - 1) by lia. replace (seq 0 (length sites)) with (seq 0 (length sites - 1) ++ [length sites - 1]) by (rewrite <- seq_S; f_equal; lia).
    rewrite map_app. cbn [map]. do 2 f_equal. unfold rten_at. cbn [nth]. fold T. rewrite (nth_error_nth _ _ _ EP'). destruct (Nat.eqb_spec (length sites - 1) 0); [lia|]. destruct (Nat.eqb_spec (S (length sites - 1)) (length sites)); [auto|lia].
Qed.
(** whatever path of blocks, the total is the requested one *)
Lemma telescope (n : nat) (s b f : nat -> Q) : (forall i, i < n -> flux (b i) (s i) (b (S i)) = f i) ->
  qadd (psum (map s (seq 0 n)) n) (b n) = qadd (psum (map f (seq 0 n)) n) (b 0).
Proof.
  assert (PS : forall (g : nat -> Q) m k, k <= m -> psum (map g (seq 0 m)) k = psum (map g (seq 0 k)) k).
  { intros g m. assert (Y : forall k a, k <= a -> k <= m -> a <= m -> psum (map g (seq 0 m)) k = psum (map g (seq 0 a)) k).
    { induction k as [|k IH]; intros a H1 H2 H3; cbn [psum]; auto. rewrite (IH a) by lia. f_equal. rewrite !(nth_indep _ q0 (g 0)) by (rewrite map_length, seq_length; lia). rewrite !map_nth, !seq_nth by lia. auto. }
    intros k H. apply Y; lia. }
  induction n as [|n IH]; intros H; [cbn; auto|]. cbn [psum]. rewrite !(PS _ (S n) n) by lia.
  assert (X : forall g : nat -> Q, nth n (map g (seq 0 (S n))) q0 = g n) by (intros g; rewrite (nth_indep _ q0 (g 0)) by (rewrite map_length, seq_length; lia); rewrite map_nth, seq_nth by lia; auto).
  rewrite !X. assert (E := IH ltac:(intros; apply H; lia)). assert (F := H n ltac:(lia)). rewrite <- F. unfold flux.
  rewrite <- (add_assoc (psum (map f (seq 0 n)) n)), (add_comm _ (b 0)), (add_assoc _ (b 0)), <- E, <- !add_assoc. f_equal. rewrite sub_opp. auto.
Qed.
Lemma psum_point (T : Q) n : psum (map (fun i => if i =? 0 then T else q0) (seq 0 (S n))) (S n) = T.
Proof.
  assert (X : forall k, k <= S n -> psum (map (fun i => if i =? 0 then T else q0) (seq 0 (S n))) k = if k =? 0 then q0 else T).
  { induction k as [|k IH]; intros H; [auto|]. cbn [psum]. rewrite IH by lia. rewrite (nth_indep _ q0 (if 0 =? 0 then T else q0)) by (rewrite map_length, seq_length; lia).
    rewrite (map_nth (fun i => if i =? 0 then T else q0)), seq_nth by lia. cbn [Nat.add]. destruct k; cbn; [apply add_0l|apply add_0]. }
  rewrite X by lia. auto.
Qed.
Lemma ext_total sites qss dim s b : 2 <= length sites -> allowed (map (rten_at sites qss dim) (seq 0 (length sites))) s b -> b 0 = q0 -> b (length sites) = q0 ->
  psum (map s (seq 0 (length sites))) (length sites) = total (nth 0 qss []).
Proof.
  intros HN HA B0 BN. set (T := total (nth 0 qss [])). assert (X := telescope (length sites) s b (fun i => if i =? 0 then T else q0)). rewrite B0, BN, !add_0 in X. rewrite X.
  - destruct (length sites) as [|n]; [lia|]. apply psum_point.
  - intros i Hi. apply (HA i (rten_at sites qss dim i)). rewrite nth_error_map, (nth_error_nth' _ 0) by (rewrite seq_length; auto). rewrite seq_nth by auto. auto.
Qed.
(** the blocks of one of the given product states exist exactly if it has the same total *)
Lemma ext_member sites labss qss dim j qs : Forall2 (has_qns sites) labss qss -> 2 <= length sites -> nth_error qss j = Some qs ->
  let T := total (nth 0 qss []) in let N := length sites in
  let b := fun i => if (i =? 0) || (i =? N) then q0 else qsub T (psum qs i) in
  (forall i t, nth_error (map (rten_at sites qss dim) (seq 0 N)) i = Some t -> bond_has (tl Q t) (b i) /\ bond_has (tr Q t) (b (S i))) /\
  (allowed (map (rten_at sites qss dim) (seq 0 N)) (fun i => nth i qs q0) b <-> total qs = T).
Proof.
  intros HF HN HJ T N b.
  assert (HQ : length qs = N). { assert (X : Forall (fun qs => length qs = N) qss) by (clear - HF; induction HF as [|a c l l' (A & B & C)]; constructor; auto). rewrite Forall_forall in X. apply X. apply (nth_error_In _ _ HJ). }
  assert (IN : forall k, In (qsub T (psum qs k)) (map fst (ext_sectors qss T k dim))) by (intros k; unfold ext_sectors; rewrite map_map; cbn; apply (in_map (fun x => qsub T (psum x k))); apply (nth_error_In _ _ HJ)).
  split.
  - intros i t Ht. apply nth_map_seq0 in Ht. destruct Ht as [Hi ->]. unfold rten_at, bond_has, b. cbn [tl tr]. fold T. split.
    + destruct (Nat.eqb_spec i 0); [cbn; auto|]. destruct (Nat.eqb_spec i N); [lia|]. cbn [orb]. apply IN.
    + change (S i =? 0) with false. cbn [orb]. fold N. destruct (Nat.eqb_spec (S i) N); [cbn; auto|]. apply IN.
  - split.
    + intros HA. assert (X := ext_total sites qss dim _ b HN HA). fold T in X. rewrite <- X; [|unfold b; auto|unfold b; rewrite (proj2 (Nat.eqb_eq _ _) (eq_refl : length sites = N)), orb_true_r; auto].
      unfold total. rewrite HQ. fold N. f_equal. clear - HQ. rewrite <- HQ. clear. apply nth_ext with q0 q0; [rewrite map_length, seq_length; auto|]. intros n Hn. rewrite (nth_indep (map _ _) q0 (nth 0 qs q0)) by (rewrite map_length, seq_length; auto).
      rewrite (map_nth (fun i => nth i qs q0)), seq_nth by auto. auto.
    + intros HT i t Ht. apply nth_map_seq0 in Ht. destruct Ht as [Hi ->]. unfold b. cbn [tdiv rten_at]. fold T. change (S i =? 0) with false. destruct (Nat.eqb_spec i 0) as [->|N0].
      * replace (1 =? N) with false by (symmetry; apply Nat.eqb_neq; unfold N; lia). cbn [orb psum]. unfold flux. rewrite add_0l, sub_0, sub_opp. auto.
      * destruct (Nat.eqb_spec i N); [lia|]. cbn [orb]. destruct (Nat.eqb_spec (S i) N) as [E|NE].
        -- unfold flux. rewrite add_0. assert (X : total qs = qadd (psum qs i) (nth i qs q0)) by (unfold total; rewrite HQ, <- E; auto). rewrite <- HT, X, (add_comm (psum qs i)), add_sub. apply sub_self.
        -- unfold flux. cbn [psum]. rewrite <- sub_sub, sub_opp. apply sub_self.
Qed.
End Facts.
