(** A master (rank 0) and workers that only talk to the master and never receive from any source: if the master, communicating without
    buffers, never sends to a worker that does not wait for exactly this message, then every execution with buffers is one without. *)
From Coq Require Import List Arith Lia Bool.
From Verif Require Import Mpi.
Import ListNotations.

Section Star.
Variables L V : Type.
Variable prog : nat -> L -> act L V.
Variable W : nat.                                        (* workers 1 .. W *)
Notation P := (S W).
Notation msg := (nat * V)%type.
Notation net := (net L V).
Notation step := (step L V prog P). Notation steps := (steps L V prog P).
Notation buffered := (buffered L V prog P). Notation receive := (receive L V prog P). Notation direct := (direct L V prog P).
Notation sync := (sync L V prog P). Notation final := (final L V prog P).

Definition worker_shape : Prop := forall w l, 1 <= w -> w < P -> match prog w l with ASend d _ _ _ => d = 0 | ARecv so to _ => so = Some 0 /\ to <> None | AHalt => True end.
Hypothesis shape : worker_shape.
(** the worker reads the messages in this order *)
Fixpoint feed (w : nat) (l : L) (ms : list msg) : option L :=
  match ms with
  | [] => Some l
  | (t, v) :: ms => match prog w l with ARecv (Some 0) (Some t') k => if t' =? t then feed w (k 0 t v) ms else None | _ => None end
  end.
(** the worker sends the messages one after another *)
Fixpoint owed (w : nat) (l : L) (ms : list msg) (l' : L) : Prop :=
  match ms with
  | [] => l' = l
  | (t, v) :: ms => match prog w l with ASend _ t' v' l1 => t' = t /\ v' = v /\ owed w l1 ms l' | _ => False end
  end.
Definition safe (g : nat -> L) : Prop :=
  (forall d t v l, prog 0 (g 0) = ASend d t v l -> 1 <= d /\ d < P /\ exists k, prog d (g d) = ARecv (Some 0) (Some t) k) /\
  (forall so to k, prog 0 (g 0) = ARecv so to k -> forall w ms l' m r, 1 <= w -> w < P -> fits so w = true -> owed w (g w) ms l' -> take to ms = Some (m, r) -> ms = m :: r).

(** G: what is known about all states without buffers *)
Variable G : (nat -> L) -> Prop.
Hypothesis G_sync : forall g g', G g -> sync g g' -> G g'.
Hypothesis G_safe : forall g, G g -> safe g.
Definition sess (s : net) (w : nat) (l : L) : Prop :=
  (chan s w 0 = [] /\ feed w (loc s w) (chan s 0 w) = Some l) \/ (chan s 0 w = [] /\ owed w l (chan s w 0) (loc s w)).
Definition abs (s : net) (g : nat -> L) : Prop :=
  loc s 0 = g 0 /\ (forall w, 1 <= w -> w < P -> sess s w (g w)) /\ (forall p q, (p = 0 <-> q = 0) -> chan s p q = []) /\ (forall p q, P <= p \/ P <= q -> chan s p q = []).

Lemma setl_eq : forall f i (x : L), setl f i x i = x. Proof. intros. unfold setl. rewrite Nat.eqb_refl. auto. Qed.
Lemma setl_ne : forall f i j (x : L), j <> i -> setl f i x j = f j. Proof. intros. unfold setl. apply Nat.eqb_neq in H. rewrite H. auto. Qed.
Lemma setc_eq : forall f a b (x : list msg), setc f a b x a b = x. Proof. intros. unfold setc. rewrite !Nat.eqb_refl. auto. Qed.
Lemma setc_ne : forall f a b i j (x : list msg), i <> a \/ j <> b -> setc f a b x i j = f i j.
Proof. intros f a b i j x H. unfold setc. destruct (Nat.eqb_spec i a), (Nat.eqb_spec j b); auto. lia. Qed.
Ltac net := cbn [loc chan]; repeat first [rewrite setl_eq | rewrite setl_ne by lia | rewrite setc_eq | rewrite setc_ne by lia].
Lemma feed_app : forall ms w l l1 ms', feed w l ms = Some l1 -> feed w l (ms ++ ms') = feed w l1 ms'.
Proof.
  induction ms as [|[t v] ms IH]; cbn; intros w l l1 ms' H; [inversion H; auto|].
  destruct (prog w l) as [|[[|]|] [t'|] k|]; try discriminate. destruct (t' =? t); [|discriminate]. auto.
Qed.
Lemma owed_app : forall ms w l l1 t v l2 d, owed w l ms l1 -> prog w l1 = ASend d t v l2 -> owed w l (ms ++ [(t, v)]) l2.
Proof.
  induction ms as [|[t' v'] ms IH]; cbn; intros w l l1 t v l2 d H E; [subst; rewrite E; auto|].
  destruct (prog w l); try contradiction. destruct H as [A [B C]]. split; [auto|]. split; [auto|]. eapply IH; eauto.
Qed.
Lemma abs_start : forall g, abs (start g) g.
Proof. intros g. split; [auto|]. split; [|split; auto]. intros w H1 H2. left. cbn. auto. Qed.

Definition others (s s' : net) (a b : nat) : Prop := forall i j, i <> a \/ j <> b -> chan s' i j = chan s i j.
Definition buffer_case (s s' : net) (g g' : nat -> L) : Prop :=
  (g' = g /\ exists w, 1 <= w < P /\ others s s' w 0 /\ length (chan s' w 0) = S (length (chan s w 0))) \/
  (sync g g' /\ exists w, 1 <= w < P /\ others s s' 0 w /\ length (chan s' 0 w) = S (length (chan s 0 w)) /\ forall w', 1 <= w' -> w' <> w -> g' w' = g w').
Definition receive_case (s s' : net) (g g' : nat -> L) : Prop :=
  (g' = g /\ exists w, 1 <= w < P /\ others s s' 0 w /\ length (chan s 0 w) = S (length (chan s' 0 w))) \/
  (sync g g' /\ exists w, 1 <= w < P /\ others s s' w 0 /\ length (chan s w 0) = S (length (chan s' w 0)) /\ (exists d t v, prog w (g w) = ASend d t v (g' w)) /\ forall w', 1 <= w' -> w' <> w -> g' w' = g w').
Lemma buffered_abs : forall s s' g, G g -> abs s g -> buffered s s' -> exists g', G g' /\ abs s' g' /\ buffer_case s s' g g'.
Proof.
  intros s s' g HG [A0 [AW [AC AP]]] H. inversion H as [p d t v l Hp E]; subst.
  destruct (Nat.eq_dec p 0) as [->|Hp0].
  - (* the master *)
    rewrite A0 in E. destruct (G_safe g HG) as [S1 _]. destruct (S1 d t v l E) as [D1 [D2 [k Ek]]].
    assert (Y : sync g (setl (setl g 0 l) d (k 0 t v))) by (eapply Syn; eauto; try lia; cbn; apply Nat.eqb_refl).
    exists (setl (setl g 0 l) d (k 0 t v)). split; [eapply G_sync; eauto|]. split; [|right; split; [auto|]; exists d; split; [lia|]; split; [intros i j Hij; cbn [chan]; rewrite setc_ne by lia; auto|]; split; [cbn [chan]; rewrite setc_eq, app_length; cbn; lia|]; intros w' W1 W2; rewrite !setl_ne by lia; auto].
    split; [|split; [|split]].
    + net. auto.
    + intros w W1 W2. destruct (Nat.eq_dec w d) as [->|Hw].
      * rewrite setl_eq. left. net. destruct (AW d D1 D2) as [[B1 B2]|[B1 B2]].
        -- split; [auto|]. rewrite (feed_app _ _ _ _ _ B2). cbn. rewrite Ek, Nat.eqb_refl. auto.
        -- destruct (chan s d 0) as [|[t' v'] ms]; [|cbn in B2; rewrite Ek in B2; contradiction]. cbn in B2. rewrite B1, B2. cbn. rewrite Ek, Nat.eqb_refl. auto.
      * rewrite !setl_ne by lia. destruct (AW w W1 W2) as [[B1 B2]|[B1 B2]]; [left|right]; net; auto.
    + intros p q Hpq. cbn [loc chan]. rewrite setc_ne by (destruct p, q; lia). auto.
    + intros p q Hpq. net. auto.
  - pose proof (shape p (loc s p)) as Sh. rewrite E in Sh. assert (d = 0) by (apply Sh; lia). subst d.
    exists g. split; [auto|]. split; [|left; split; [auto|]; exists p; split; [lia|]; split; [intros i j Hij; cbn [chan]; rewrite setc_ne by lia; auto|cbn [chan]; rewrite setc_eq, app_length; cbn; lia]]. split; [|split; [|split]].
    + net. auto.
    + intros w W1 W2. destruct (Nat.eq_dec w p) as [->|Hw].
      * right. net. destruct (AW p W1 W2) as [[B1 B2]|[B1 B2]].
        -- destruct (chan s 0 p) as [|[t' v'] ms]; [|cbn in B2; rewrite E in B2; discriminate]. cbn in B2. injection B2 as B3. rewrite B1. cbn [owed app]. rewrite <- B3, E. auto.
        -- split; [auto|]. eapply owed_app; eauto.
      * destruct (AW w W1 W2) as [[B1 B2]|[B1 B2]]; [left|right]; net; auto.
    + intros p' q Hpq. cbn [loc chan]. rewrite setc_ne by (destruct p', q; lia). auto.
    + intros p' q Hpq. net. auto.
Qed.
Lemma take_in : forall o ms (m : msg) r, take o ms = Some (m, r) -> fits o (fst m) = true.
Proof.
  induction ms as [|x ms IH]; cbn; intros m r H; [discriminate|]. destruct (fits o (fst x)) eqn:F; [inversion H; subst; auto|].
  destruct (take o ms) as [[y z]|] eqn:T; [|discriminate]. inversion H; subst. eapply IH; eauto.
Qed.
Lemma receive_abs : forall s s' g, G g -> abs s g -> receive s s' -> exists g', G g' /\ abs s' g' /\ receive_case s s' g g'.
Proof.
  intros s s' g HG [A0 [AW [AC AP]]] H. inversion H as [p q so to k t v r Hp Hq E F T]; subst.
  destruct (Nat.eq_dec p 0) as [->|Hp0].
  - rewrite A0 in E. destruct (G_safe g HG) as [_ S2].
    destruct (Nat.eq_dec q 0) as [->|Hq0]; [rewrite AC in T by tauto; discriminate|].
    destruct (AW q ltac:(lia) Hq) as [[B1 B2]|[B1 B2]]; [rewrite B1 in T; discriminate|].
    pose proof (S2 _ _ _ E q _ _ _ _ ltac:(lia) Hq F B2 T) as M. rewrite M in B2. cbn in B2.
    destruct (prog q (g q)) as [d t' v' l1| |] eqn:Eq; try contradiction. destruct B2 as [-> [-> B2]].
    pose proof (shape q (g q)) as Sh. rewrite Eq in Sh. assert (d = 0) by (apply Sh; lia). subst d.
    assert (Y : sync g (setl (setl g q l1) 0 (k q t v))) by (eapply Syn; eauto; try lia; apply (take_in _ _ _ _ T)).
    exists (setl (setl g q l1) 0 (k q t v)). split; [eapply G_sync; eauto|]. split; [|right; split; [auto|]; exists q; split; [lia|]; split; [intros i j Hij; cbn [chan]; rewrite setc_ne by lia; auto|]; split; [cbn [chan]; rewrite setc_eq, M; auto|]; split; [exists 0, t, v; rewrite setl_ne, setl_eq by lia; auto|]; intros w' W1 W2; rewrite !setl_ne by lia; auto]. split; [|split; [|split]].
    + net. auto.
    + intros w W1 W2. rewrite (setl_ne _ 0 w) by lia. destruct (Nat.eq_dec w q) as [->|Hw].
      * rewrite setl_eq. right. net. auto.
      * rewrite setl_ne by lia. destruct (AW w W1 W2) as [[C1 C2]|[C1 C2]]; [left|right]; net; auto.
    + intros p q' Hpq. cbn [loc chan]. rewrite setc_ne by (destruct p, q'; lia). auto.
    + intros p q' Hpq. net. auto.
  - pose proof (shape p (loc s p)) as Sh. rewrite E in Sh. destruct Sh as [-> Ht]; [lia|lia|]. cbn in F. destruct q; [|discriminate]. clear F.
    destruct (AW p ltac:(lia) Hp) as [[B1 B2]|[B1 B2]]; [|rewrite B1 in T; discriminate].
    destruct to as [t0|]; [|congruence].
    destruct (chan s 0 p) as [|[t1 v1] ms] eqn:Ec; [discriminate|]. cbn in B2. rewrite E in B2. destruct (Nat.eqb_spec t0 t1) as [->|]; [|discriminate].
    cbn in T. rewrite Nat.eqb_refl in T. inversion T; subst.
    exists g. split; [auto|]. split; [|left; split; [auto|]; exists p; split; [lia|]; split; [intros i j Hij; cbn [chan]; rewrite setc_ne by lia; auto|cbn [chan]; rewrite setc_eq, Ec; auto]]. split; [|split; [|split]].
    + net. auto.
    + intros w W1 W2. destruct (Nat.eq_dec w p) as [->|Hw].
      * left. net. auto.
      * destruct (AW w W1 W2) as [[C1 C2]|[C1 C2]]; [left|right]; net; auto.
    + intros p' q Hpq. cbn [loc chan]. rewrite setc_ne by (destruct p', q; lia). auto.
    + intros p' q Hpq. net. auto.
Qed.

(** a direct communication is a buffered send followed by the receive *)
Definition same (s s' : net) : Prop := (forall p, loc s p = loc s' p) /\ forall p q, chan s p q = chan s' p q.
Lemma take_last : forall o ms (m : msg), take o ms = None -> fits o (fst m) = true -> take o (ms ++ [m]) = Some (m, ms).
Proof.
  induction ms as [|x ms IH]; cbn; intros m H F; [rewrite F; auto|]. destruct (fits o (fst x)); [discriminate|].
  destruct (take o ms) as [[y z]|] eqn:T; [discriminate|]. rewrite (IH m); auto.
Qed.
Lemma direct_two : forall s s', direct s s' -> exists s1 s2, buffered s s1 /\ receive s1 s2 /\ same s2 s'.
Proof.
  intros s s' H. inversion H as [p d t v l so to k Hp Hd N E1 E2 F1 F2 T]; subst.
  eexists. eexists. split; [eapply (Buf _ _ _ _ _ p d t v l); eauto|]. split; [eapply (Rcv _ _ _ _ _ d p so to k t v (chan s p d)); auto|].
  - cbn [loc]. rewrite setl_ne by auto. auto.
  - cbn [chan]. rewrite setc_eq. apply take_last; auto.
  - split; cbn [loc chan]; [auto|]. intros a b. unfold setc. destruct ((a =? p) && (b =? d)) eqn:X; auto.
    apply andb_true_iff in X. destruct X as [X1 X2]. apply Nat.eqb_eq in X1, X2. subst. auto.
Qed.
Lemma same_abs : forall s s' g, same s s' -> abs s g -> abs s' g.
Proof.
  intros s s' g [S1 S2] [A0 [AW [AC AP]]]. split; [rewrite <- S1; auto|]. split; [|split; intros; rewrite <- S2; auto].
  intros w W1 W2. destruct (AW w W1 W2) as [[B1 B2]|[B1 B2]]; [left|right]; rewrite <- !S2, <- S1; auto.
Qed.
Lemma step_abs : forall s s' g, G g -> abs s g -> step s s' -> exists g', G g' /\ abs s' g'.
Proof.
  intros s s' g HG A [H|[H|H]].
  - destruct (buffered_abs s s' g HG A H) as [g' [X [Y _]]]. eauto.
  - destruct (receive_abs s s' g HG A H) as [g' [X [Y _]]]. eauto.
  - destruct (direct_two s s' H) as [s1 [s2 [B [R S]]]]. destruct (buffered_abs s s1 g HG A B) as [g1 [X1 [Y1 _]]].
    destruct (receive_abs s1 s2 g1 X1 Y1 R) as [g2 [X2 [Y2 _]]]. exists g2. split; [auto|]. eapply same_abs; eauto.
Qed.
Lemma steps_abs : forall n g0 s, G g0 -> steps n (start g0) s -> exists g, G g /\ abs s g.
Proof.
  intros n g0 s HG H. remember (start g0) as s0 eqn:E. induction H; [exists g0; split; [auto|]; subst; apply abs_start|].
  destruct (IHsteps E) as [g [X Y]]. eapply step_abs; eauto.
Qed.

(** ** Progress without relying on buffers *)
Hypothesis G_prog : forall g, G g -> (exists g', sync g g') \/ forall p, p < P -> prog p (g p) = AHalt.
Lemma find_nonempty : forall (f : nat -> list msg) n, (exists w, 1 <= w < S n /\ f w <> []) \/ forall w, 1 <= w < S n -> f w = [].
Proof.
  induction n as [|n IH]; [right; intros; lia|]. destruct IH as [[w [A B]]|IH]; [left; exists w; split; [lia|auto]|].
  destruct (f (S n)) as [|m ms] eqn:E; [right|left; exists (S n); split; [lia|rewrite E; discriminate]].
  intros w Hw. destruct (Nat.eq_dec w (S n)) as [->|]; auto. apply IH. lia.
Qed.
Lemma progress : forall s g, G g -> abs s g -> final s \/ exists s', receive s s' \/ direct s s'.
Proof.
  intros s g HG [A0 [AW [AC AP]]].
  destruct (find_nonempty (fun w => chan s 0 w) W) as [[w [Hw Hn]]|E0].
  { right. destruct (AW w) as [[B1 B2]|[B1 B2]]; [lia|lia| |congruence]. destruct (chan s 0 w) as [|[t v] ms] eqn:Ec; [congruence|]. cbn in B2.
    destruct (prog w (loc s w)) as [|[[|]|] [t'|] k|] eqn:E; try discriminate. destruct (Nat.eqb_spec t' t) as [->|]; [|discriminate].
    eexists. left. eapply (Rcv _ _ _ _ _ w 0 (Some 0) (Some t) k t v ms); auto; try lia. rewrite Ec. cbn. rewrite Nat.eqb_refl. auto. }
  (* nothing on the way to a worker *)
  assert (O : forall w, 1 <= w -> w < P -> owed w (g w) (chan s w 0) (loc s w)).
  { intros w W1 W2. destruct (AW w W1 W2) as [[B1 B2]|[B1 B2]]; auto. rewrite B1. rewrite E0 in B2 by lia. cbn in B2. inversion B2. cbn. auto. }
  destruct (G_prog g HG) as [[g' Y]|HH].
  - right. inversion Y as [p d t v l so to k Hp Hd N E1 E2 F1 F2]; subst. destruct (Nat.eq_dec p 0) as [->|Hp0].
    + specialize (O d ltac:(lia) Hd). destruct (chan s d 0) as [|[t' v'] ms] eqn:Ec; [|cbn in O; rewrite E2 in O; contradiction]. cbn in O.
      eexists. right. eapply (Dir _ _ _ _ _ 0 d t v l so to k); auto; [rewrite A0; auto|rewrite O; auto|]. rewrite E0 by lia. auto.
    + pose proof (shape p (g p) ltac:(lia) Hp) as Sh. rewrite E1 in Sh. subst d.
      specialize (O p ltac:(lia) Hp). destruct (chan s p 0) as [|[t' v'] ms] eqn:Ec.
      * cbn in O. eexists. right. eapply (Dir _ _ _ _ _ p 0 t v l so to k); auto; [rewrite O; auto|rewrite A0; auto|]. rewrite Ec. auto.
      * cbn in O. rewrite E1 in O. destruct O as [-> [-> O]]. eexists. left. eapply (Rcv _ _ _ _ _ 0 p so to k t' v' ms); auto; [rewrite A0; auto|].
        rewrite Ec. cbn. rewrite F2. auto.
  - left. assert (X : forall w, 1 <= w -> w < P -> chan s w 0 = [] /\ loc s w = g w).
    { intros w W1 W2. specialize (O w W1 W2). destruct (chan s w 0) as [|[t' v'] ms] eqn:Ec; [cbn in O; auto|]. cbn in O. rewrite HH in O by lia. contradiction. }
    split.
    + intros p Hp. destruct (Nat.eq_dec p 0) as [->|]; [rewrite A0; apply HH; lia|]. destruct (X p ltac:(lia) Hp) as [_ ->]. apply HH. auto.
    + intros p q. destruct (le_lt_dec P p); [apply AP; lia|]. destruct (le_lt_dec P q); [apply AP; lia|].
      destruct p, q; [apply AC; tauto|apply E0; lia|apply X; lia|apply AC; lia].
Qed.
Theorem no_deadlock : forall n g0 s, G g0 -> steps n (start g0) s -> final s \/ exists s', receive s s' \/ direct s s'.
Proof. intros n g0 s HG H. destruct (steps_abs n g0 s HG H) as [g [X Y]]. eapply progress; eauto. Qed.
(** in a final state the abstract state is the state *)
Lemma final_abs : forall s g, G g -> abs s g -> final s -> forall p, p < P -> loc s p = g p.
Proof.
  intros s g HG [A0 [AW [AC AP]]] [F1 F2] p Hp. destruct (Nat.eq_dec p 0) as [->|]; auto.
  destruct (AW p) as [[B1 B2]|[B1 B2]]; [lia|lia| |]; rewrite F2 in B2; cbn in B2; [inversion B2; auto|auto].
Qed.
Lemma halted_empty : forall s g, G g -> abs s g -> (forall p, p < P -> prog p (loc s p) = AHalt) -> (forall p, p < P -> prog p (g p) = AHalt) -> final s.
Proof.
  intros s g HG [A0 [AW [AC AP]]] H HH. split; [auto|]. intros p q. destruct (le_lt_dec P p); [apply AP; lia|]. destruct (le_lt_dec P q); [apply AP; lia|].
  destruct p, q; [apply AC; tauto| | |apply AC; lia].
  - destruct (AW (S q)) as [[B1 B2]|[B1 B2]]; [lia|lia| |auto]. destruct (chan s 0 (S q)) as [|[t v] ms]; auto. cbn in B2. rewrite H in B2 by lia. discriminate.
  - destruct (AW (S p)) as [[B1 B2]|[B1 B2]]; [lia|lia|auto|]. destruct (chan s (S p) 0) as [|[t v] ms]; auto. cbn in B2. rewrite HH in B2 by lia. contradiction.
Qed.

(** ** Termination *)
Variable mu : (nat -> L) -> nat.
Hypothesis mu_dec : forall g g', G g -> sync g g' -> mu g' < mu g.
Variable owe : nat -> L -> nat.
Hypothesis owe_send : forall w l d t v l', 1 <= w -> w < P -> prog w l = ASend d t v l' -> owe w l = S (owe w l').
Variable B : nat.
Hypothesis owe_max : forall g w, G g -> 1 <= w -> w < P -> owe w (g w) <= B.
Fixpoint lsum (l : list nat) : nat := match l with [] => 0 | x :: l => x + lsum l end.
Definition total (f : nat -> nat) : nat := lsum (map f (seq 1 W)).
Lemma total_change : forall (f f' : nat -> nat) w, 1 <= w < S W -> (forall w', w' <> w -> f' w' = f w') -> total f' + f w = total f + f' w.
Proof.
  unfold total. intros f f' w Hw H. assert (I : In w (seq 1 W)) by (apply in_seq; lia). pose proof (seq_NoDup W 1) as ND.
  revert I ND. generalize (seq 1 W). induction l as [|x l IH]; cbn; intros I ND; [contradiction|]. inversion ND as [|? ? N1 N2]; subst.
  destruct I as [->|I].
  - assert (E : map f' l = map f l) by (apply map_ext_in; intros y Hy; apply H; congruence). rewrite E. lia.
  - specialize (IH I N2). rewrite H by congruence. lia.
Qed.
Lemma total_le : forall f c, (forall w, 1 <= w < S W -> f w <= c) -> total f <= W * c.
Proof.
  unfold total. intros f c H. assert (X : forall l, (forall w, In w l -> f w <= c) -> lsum (map f l) <= length l * c).
  { induction l as [|x l IH]; cbn; intros HH; auto. pose proof (HH x (or_introl eq_refl)). pose proof (IH (fun w i => HH w (or_intror i))). lia. }
  pose proof (X (seq 1 W)) as Y. rewrite seq_length in Y. apply Y. intros w Hw. apply in_seq in Hw. apply H. lia.
Qed.
Definition cost (s : net) (g : nat -> L) (w : nat) : nat := length (chan s 0 w) + (owe w (g w) - length (chan s w 0)).
Definition phi (s : net) (g : nat -> L) : nat := (B + 2) * mu g + total (cost s g).
Lemma owed_owe : forall ms w l l', 1 <= w -> w < P -> owed w l ms l' -> owe w l = length ms + owe w l'.
Proof.
  induction ms as [|[t v] ms IH]; cbn; intros w l l' W1 W2 H; [subst; auto|]. destruct (prog w l) eqn:E; try contradiction.
  destruct H as [_ [_ H]]. rewrite (owe_send w l _ _ _ _ W1 W2 E). rewrite (IH _ _ _ W1 W2 H). auto.
Qed.
Lemma sess_owe : forall s w l, 1 <= w -> w < P -> sess s w l -> length (chan s w 0) <= owe w l.
Proof. intros s w l W1 W2 [[H _]|[_ H]]; [rewrite H; cbn; lia|]. rewrite (owed_owe _ _ _ _ W1 W2 H). lia. Qed.

Lemma phi_buffered : forall s s' g, G g -> abs s g -> buffered s s' -> exists g', G g' /\ abs s' g' /\ phi s' g' < phi s g.
Proof.
  intros s s' g HG A H. destruct (buffered_abs s s' g HG A H) as [g' [X [Y C]]]. exists g'. split; [auto|]. split; [auto|].
  destruct C as [[-> [w [Hw [HO HL]]]]|[Hs [w [Hw [HO [HL HE]]]]]]; unfold phi.
  - pose proof (total_change (cost s g) (cost s' g) w Hw) as T.
    assert (E : forall w', w' <> w -> cost s' g w' = cost s g w') by (intros w' N; unfold cost; rewrite !HO by lia; auto). specialize (T E).
    pose proof (sess_owe s' w (g w) ltac:(lia) ltac:(lia) (proj1 (proj2 Y) w ltac:(lia) ltac:(lia))) as Q.
    assert (cost s' g w < cost s g w) by (unfold cost; rewrite (HO 0 w) by lia; lia). lia.
  - pose proof (mu_dec g g' HG Hs) as M. pose proof (owe_max g' w X ltac:(lia) ltac:(lia)) as O1.
    pose proof (total_change (cost s g) (cost s' g') w Hw) as T.
    assert (Z : total (cost s' g') <= total (cost s g) + (B + 1)).
    { assert (E : total (cost s' g') + cost s g w = total (cost s g) + cost s' g' w).
      { unfold total in *. destruct Hw as [Hw1 Hw2].
        assert (I : In w (seq 1 W)) by (apply in_seq; lia). pose proof (seq_NoDup W 1) as ND.
        assert (PS : forall y, In y (seq 1 W) -> 1 <= y) by (intros y Hy; apply in_seq in Hy; lia).
        revert I ND PS. generalize (seq 1 W). induction l as [|x l IH]; cbn; intros I ND PS; [contradiction|]. inversion ND as [|? ? N1 N2]; subst.
        assert (CC : forall y, In y l -> y <> w -> cost s' g' y = cost s g y) by (intros y Hy Ny; unfold cost; rewrite !HO by (assert (1 <= y) by (apply PS; right; auto); lia); rewrite HE by (try apply PS; auto); auto).
        destruct I as [->|I].
        - assert (E : map (cost s' g') l = map (cost s g) l) by (apply map_ext_in; intros y Hy; apply CC; congruence). rewrite E. lia.
        - specialize (IH I N2 (fun y Hy => PS y (or_intror Hy))).
          assert (CX : cost s' g' x = cost s g x) by (assert (1 <= x) by (apply PS; auto); unfold cost; rewrite !HO by (assert (x <> w) by congruence; lia); rewrite HE by (auto; congruence); auto). lia. }
      assert (cost s' g' w <= cost s g w + (B + 1)) by (unfold cost; rewrite (HO w 0) by lia; lia). lia. }
    nia.
Qed.
Lemma phi_receive : forall s s' g, G g -> abs s g -> receive s s' -> exists g', G g' /\ abs s' g' /\ phi s' g' < phi s g.
Proof.
  intros s s' g HG A H. destruct (receive_abs s s' g HG A H) as [g' [X [Y C]]]. exists g'. split; [auto|]. split; [auto|].
  destruct C as [[-> [w [Hw [HO HL]]]]|[Hs [w [Hw [HO [HL [[d [t [v Hp]]] HE]]]]]]]; unfold phi.
  - pose proof (total_change (cost s g) (cost s' g) w Hw) as T.
    assert (E : forall w', w' <> w -> cost s' g w' = cost s g w') by (intros w' N; unfold cost; rewrite !HO by lia; auto). specialize (T E).
    assert (cost s' g w < cost s g w) by (unfold cost; rewrite (HO w 0) by lia; lia). lia.
  - pose proof (mu_dec g g' HG Hs) as M.
    assert (Z : total (cost s' g') = total (cost s g)).
    { unfold total. f_equal. apply map_ext_in. intros y Hy. apply in_seq in Hy. unfold cost. destruct (Nat.eq_dec y w) as [->|Ny].
      - rewrite (HO 0 w) by lia. rewrite (owe_send w (g w) _ _ _ _ ltac:(lia) ltac:(lia) Hp). lia.
      - rewrite !HO by lia. rewrite HE by lia. auto. }
    nia.
Qed.
Lemma phi_step : forall s s' g, G g -> abs s g -> step s s' -> exists g', G g' /\ abs s' g' /\ phi s' g' < phi s g.
Proof.
  intros s s' g HG A [H|[H|H]]; [eapply phi_buffered; eauto|eapply phi_receive; eauto|].
  destruct (direct_two s s' H) as [s1 [s2 [B1 [R S]]]]. destruct (phi_buffered s s1 g HG A B1) as [g1 [X1 [Y1 Z1]]].
  destruct (phi_receive s1 s2 g1 X1 Y1 R) as [g2 [X2 [Y2 Z2]]]. exists g2. split; [auto|]. split; [eapply same_abs; eauto|].
  assert (E : phi s' g2 = phi s2 g2).
  { unfold phi, total. f_equal. f_equal. apply map_ext. intros w. unfold cost. destruct S as [_ S]. rewrite !S. auto. }
  lia.
Qed.
Theorem bounded : forall n g0 s, G g0 -> steps n (start g0) s -> n <= (B + 2) * mu g0 + W * B.
Proof.
  intros n g0 s HG H.
  assert (X : exists g, G g /\ abs s g /\ phi s g + n <= phi (start g0) g0).
  { remember (start g0) as s0 eqn:E. induction H; [exists g0; split; [auto|]; subst; split; [apply abs_start|lia]|].
    destruct (IHsteps E) as [g [X [Y Z]]]. destruct (phi_step _ _ g X Y H0) as [g' [X' [Y' Z']]]. exists g'. split; [auto|]. split; [auto|]. lia. }
  destruct X as [g [_ [_ X]]]. assert (phi (start g0) g0 <= (B + 2) * mu g0 + W * B); [|lia].
  unfold phi. apply Nat.add_le_mono_l. apply total_le. intros w Hw. unfold cost. cbn. pose proof (owe_max g0 w HG ltac:(lia) ltac:(lia)). lia.
Qed.
End Star.
