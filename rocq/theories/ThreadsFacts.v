(** Proofs about Threads.v *)
From Coq Require Import List Arith Lia Bool.
From Verif Require Import Base Disk TwoSite Noise Threads.
Import ListNotations.

(** ** Independent instructions *)
Section Generic.
Variables (A W : Type) (ex : A -> W -> res W).
Variables loc val : Type.
Notation view := (loc -> val).
Definition pmap := loc -> option val.
Definition app_ (p : pmap) (v : view) : view := fun l => match p l with Some x => x | None => v l end.
Variable astep : A -> view -> option pmap.
Variables rd wr : A -> loc -> Prop.
Hypothesis astep_rd : forall c v v', (forall l, rd c l -> v l = v' l) -> astep c v = astep c v'.
Hypothesis astep_wr : forall c v p l, astep c v = Some p -> p l <> None -> wr c l.
Variable Vw : W -> view -> Prop.
Hypothesis Vw_ext : forall w v v', (forall l, v l = v' l) -> Vw w v -> Vw w v'.
Hypothesis sim : forall w v c p, Vw w v -> astep c v = Some p -> exists w', ex c w = Ok w' /\ Vw w' (app_ p v).

Definition indep (c d : A) : Prop := forall l, (wr c l -> ~ rd d l /\ ~ wr d l) /\ (wr d l -> ~ rd c l).
Lemma indep_sym c d : indep c d -> indep d c.
Proof. intros H l. destruct (H l) as (H1 & H2). split; [|firstorder]. intros Hd. split; [auto|]. intros Hc. apply H1; auto. Qed.
Fixpoint arun (q : list A) (v : view) : option view := match q with [] => Some v | c :: q => match astep c v with Some p => arun q (app_ p v) | None => None end end.
Definition eqv (v v' : view) : Prop := forall l, v l = v' l.
Lemma app_ext p v v' : eqv v v' -> eqv (app_ p v) (app_ p v').
Proof. intros H l. unfold app_. destruct (p l); auto. Qed.
Lemma arun_ext q : forall v v' vf, eqv v v' -> arun q v = Some vf -> exists vf', arun q v' = Some vf' /\ eqv vf vf'.
Proof.
  induction q as [|c q IH]; cbn; intros v v' vf H R.
  - injection R as <-. exists v'. auto.
  - rewrite <- (astep_rd c v v') by auto. destruct (astep c v) as [p|]; [|discriminate]. apply (IH (app_ p v)); auto. apply app_ext; auto.
Qed.
Lemma arun_app a b v : arun (a ++ b) v = match arun a v with Some v' => arun b v' | None => None end.
Proof. revert v. induction a as [|c a IH]; cbn; intros; auto. destruct (astep c v); auto. Qed.
Definition runs_to q v vf := exists vf', arun q v = Some vf' /\ eqv vf vf'.
Lemma runs_ext q v v' vf : eqv v v' -> runs_to q v vf -> runs_to q v' vf.
Proof. intros H (vf' & R & HE). destruct (arun_ext q v v' vf' H R) as (vf2 & R2 & H2). exists vf2. split; auto. intros l. rewrite HE. auto. Qed.
Lemma runs_ext_r q v vf vf' : eqv vf' vf -> runs_to q v vf -> runs_to q v vf'.
Proof. intros H (x & R & HE). exists x. split; auto. intros l. rewrite H. auto. Qed.
Lemma swap c d q v vf : indep c d -> runs_to (c :: d :: q) v vf -> runs_to (d :: c :: q) v vf.
Proof.
  intros HI (vf' & R & HE). cbn in R. destruct (astep c v) as [pc|] eqn:EC; [|discriminate].
  destruct (astep d (app_ pc v)) as [pd|] eqn:ED; [|discriminate].
  assert (ED' : astep d v = Some pd).
  { rewrite <- ED. apply astep_rd. intros l Hl. unfold app_. destruct (pc l) eqn:EP; auto. exfalso. assert (wr c l) by (eapply astep_wr; [exact EC|congruence]). apply (proj1 (HI l)) in H. tauto. }
  assert (EC' : astep c (app_ pd v) = Some pc).
  { rewrite <- EC. apply astep_rd. intros l Hl. unfold app_. destruct (pd l) eqn:EP; auto. exfalso. assert (wr d l) by (eapply astep_wr; [exact ED|congruence]). apply (proj2 (HI l)) in H. tauto. }
  unfold runs_to. cbn. rewrite ED', EC'. apply (runs_ext q (app_ pd (app_ pc v))); [|exists vf'; auto].
  intros l. unfold app_. destruct (pc l) eqn:E1, (pd l) eqn:E2; auto. exfalso. assert (wr c l) by (eapply astep_wr; [exact EC|congruence]). assert (wr d l) by (eapply astep_wr; [exact ED|congruence]). apply (proj1 (HI l)) in H. tauto.
Qed.
Lemma runs_cons c q v vf : runs_to (c :: q) v vf <-> exists p, astep c v = Some p /\ runs_to q (app_ p v) vf.
Proof.
  unfold runs_to. cbn. destruct (astep c v) as [p|]; split.
  - intros H. exists p. split; [reflexivity|exact H].
  - intros (p' & E & H). injection E as <-. exact H.
  - intros (x & E & _). discriminate.
  - intros (p & E & _). discriminate.
Qed.
Lemma to_front c a b v vf : (forall d, In d a -> indep d c) -> runs_to (a ++ c :: b) v vf -> runs_to (c :: a ++ b) v vf.
Proof.
  revert v. induction a as [|d a IH]; intros v HI H; auto. cbn [app] in *. apply swap; [apply HI; left; auto|].
  apply runs_cons in H. destruct H as (p & E & H). apply runs_cons. exists p. split; auto. apply IH; auto. intros; apply HI; right; auto.
Qed.
Lemma from_front c a b v vf : (forall d, In d a -> indep c d) -> runs_to (c :: a ++ b) v vf -> runs_to (a ++ c :: b) v vf.
Proof.
  revert v. induction a as [|d a IH]; intros v HI H; auto. cbn [app] in *. apply swap in H; [|apply HI; left; auto].
  apply runs_cons in H. destruct H as (p & E & H). apply runs_cons. exists p. split; auto. apply IH; auto. intros; apply HI; right; auto.
Qed.
Definition indeps (q r : list A) : Prop := forall c d, In c q -> In d r -> indep c d.
Lemma indeps_sym q r : indeps q r -> indeps r q.
Proof. intros H c d Hc Hd. apply indep_sym, H; auto. Qed.
(** whole lists *)
Lemma blocks_swap a b : forall r v vf, indeps a b -> runs_to (a ++ b ++ r) v vf -> runs_to (b ++ a ++ r) v vf.
Proof.
  induction b as [|d b IH]; intros r v vf HI H; auto. cbn [app] in *. apply to_front in H; [|intros c Hc; apply HI; auto; left; auto].
  apply runs_cons in H. destruct H as (p & E & H). apply runs_cons. exists p. split; auto. apply IH; auto. intros c d' Hc Hd. apply HI; auto. right; auto.
Qed.
Lemma under q a b vf : (forall v, runs_to a v vf -> runs_to b v vf) -> forall v, runs_to (q ++ a) v vf -> runs_to (q ++ b) v vf.
Proof. intros H. induction q as [|c q IH]; intros v HR; [auto|]. cbn [app] in *. apply runs_cons in HR. destruct HR as (p & E & HR). apply runs_cons. exists p. split; auto. Qed.

(** ** Programs with threads: no two instructions that can run at the same time conflict *)
Fixpoint eager (m : list (stmt A)) : list A := match m with [] => [] | Run c :: m => c :: eager m | Fork _ q :: m => q ++ eager m | Join _ :: m => eager m end.
Notation pool := (list (nat * list A)).
Definition pending (ths : pool) : list A := flat_map snd ths.
Fixpoint safe (ths : pool) (m : list (stmt A)) : Prop :=
  match m with
  | [] => ths = []
  | Run c :: m => indeps [c] (pending ths) /\ safe ths m
  | Fork p q :: m => ~ In p (map fst ths) /\ indeps q (pending ths) /\ safe (ths ++ [(p, q)]) m
  | Join p :: m => In p (map fst ths) /\ safe (drop A p ths) m
  end.
(** threads have advanced *)
Definition sub (a b : nat * list A) : Prop := fst a = fst b /\ incl (snd a) (snd b).
Lemma sub_fst ths ths' : Forall2 sub ths ths' -> map fst ths = map fst ths'.
Proof. induction 1 as [|a b x y H _ IH]; cbn; auto. destruct H as (-> & _). congruence. Qed.
Lemma sub_pending ths ths' : Forall2 sub ths ths' -> incl (pending ths) (pending ths').
Proof. induction 1 as [|a b x y H _ IH]; cbn; [apply incl_refl|]. apply incl_app; [apply incl_appl, H|apply incl_appr, IH]. Qed.
Lemma sub_drop p ths ths' : Forall2 sub ths ths' -> Forall2 sub (drop A p ths) (drop A p ths').
Proof. induction 1 as [|a b x y H _ IH]; cbn; auto. destruct H as (E & I). rewrite E. destruct (negb (fst b =? p)); auto. constructor; auto. split; auto. Qed.
Lemma safe_sub m : forall ths ths', Forall2 sub ths ths' -> safe ths' m -> safe ths m.
Proof.
  induction m as [|[c|p q|p] m IH]; cbn; intros ths ths' H HS.
  - subst. inversion H. auto.
  - destruct HS as (H1 & H2). split; [|eapply IH; eauto]. intros x y Hx Hy. apply H1; auto. eapply sub_pending; eauto.
  - destruct HS as (H0 & H1 & H2). rewrite (sub_fst _ _ H). split; auto. split; [intros x y Hx Hy; apply H1; auto; eapply sub_pending; eauto|].
    eapply IH; [|exact H2]. apply Forall2_app; auto. constructor; auto. split; auto. apply incl_refl.
  - destruct HS as (H0 & H1). rewrite (sub_fst _ _ H). split; auto. eapply IH; [|exact H1]. apply sub_drop; auto.
Qed.
(** threads of the pool do not conflict with one another *)
Fixpoint apart (ths : pool) : Prop := match ths with [] => True | t :: ths => indeps (snd t) (pending ths) /\ apart ths end.
Lemma apart_app a b : apart (a ++ b) <-> apart a /\ apart b /\ indeps (pending a) (pending b).
Proof.
  induction a as [|t a IH]; cbn; [split; [intros H; split; auto; split; auto; intros c d []|tauto]|].
  rewrite IH. unfold pending. rewrite flat_map_app. fold (pending a) (pending b). unfold indeps. split.
  - intros (H1 & H2 & H3 & H4). split; [split; [intros; apply H1; auto; apply in_or_app; auto|auto]|]. split; auto.
    intros c d Hc Hd. cbn in Hc. apply in_app_or in Hc as [Hc|Hc]; [apply H1; auto; apply in_or_app; auto|apply H4; auto].
  - intros ((H1 & H2) & H3 & H4). split; [|split; [auto|split; [auto|intros; apply H4; auto; apply in_or_app; auto]]].
    intros c d Hc Hd. apply in_app_or in Hd as [Hd|Hd]; [apply H1; auto|apply H4; auto; apply in_or_app; auto].
Qed.
Lemma drop_notin p ths : ~ In p (map fst ths) -> drop A p ths = ths.
Proof. induction ths as [|t ths IH]; cbn; auto. intros H. destruct (Nat.eqb_spec (fst t) p) as [E|E]; [exfalso; apply H; auto|]. cbn. f_equal. apply IH. tauto. Qed.
Lemma drop_mid a p q b : NoDup (map fst (a ++ (p, q) :: b)) -> drop A p (a ++ (p, q) :: b) = a ++ b.
Proof.
  intros H. rewrite map_app in H. cbn in H. assert (NI : ~ In p (map fst a ++ map fst b)) by (apply NoDup_remove_2; auto).
  unfold drop. rewrite filter_app. cbn. rewrite Nat.eqb_refl. cbn. fold (drop A p a) (drop A p b).
  rewrite !drop_notin; auto; intros HI; apply NI; apply in_or_app; auto.
Qed.
Record inv (vf : view) (cf : conf A W) : Prop := {
  i_nd : NoDup (map fst (c_ths A W cf)); i_safe : safe (c_ths A W cf) (c_main A W cf); i_apart : apart (c_ths A W cf);
  i_run : exists v, Vw (c_w A W cf) v /\ runs_to (pending (c_ths A W cf) ++ eager (c_main A W cf)) v vf }.
Notation step := (step A W ex). Notation steps := (steps A W ex). Notation bad := (bad A W ex).
Lemma first_ok vf c q w : (exists v, Vw w v /\ runs_to (c :: q) v vf) -> exists w', ex c w = Ok w' /\ exists v, Vw w' v /\ runs_to q v vf.
Proof. intros (v & HV & H). apply runs_cons in H. destruct H as (p & E & H). destruct (sim w v c p HV E) as (w' & X & HV'). exists w'. split; auto. exists (app_ p v). auto. Qed.
(** any instruction at the head of a thread, or of the main program, can be done first *)
Lemma thread_first vf m a p c q b w : inv vf (mkC A W m (a ++ (p, c :: q) :: b) w) -> exists w', ex c w = Ok w' /\ inv vf (mkC A W m (a ++ (p, q) :: b) w').
Proof.
  intros [ND SF AP (v & HV & H)]. cbn in *.
  assert (H' : runs_to (c :: pending (a ++ (p, q) :: b) ++ eager m) v vf).
  { unfold pending in *. rewrite flat_map_app in *. cbn in *. rewrite <- !app_assoc in *. cbn in *. rewrite <- !app_assoc in *. apply to_front; [|exact H].
    intros d Hd. apply apart_app in AP as (_ & _ & AP). apply AP; [exact Hd|cbn; auto]. }
  destruct (first_ok vf c _ w (ex_intro _ v (conj HV H'))) as (w' & E & v' & HV' & R'). exists w'. split; auto.
  assert (SB : Forall2 sub (a ++ (p, q) :: b) (a ++ (p, c :: q) :: b)).
  { apply Forall2_app; [|constructor; [split; cbn; auto; apply incl_tl, incl_refl|]].
    - clear. induction a; constructor; auto. split; auto. apply incl_refl.
    - clear. induction b; constructor; auto. split; auto. apply incl_refl. }
  constructor; cbn.
  - rewrite map_app in *. exact ND.
  - eapply safe_sub; eauto.
  - apply apart_app in AP as (A1 & (A2 & A3) & A4). apply apart_app. cbn in *. split; auto. split; [split; auto; intros x y Hx Hy; apply A2; auto; right; auto|].
    intros x y Hx Hy. apply A4; auto. cbn. right. auto.
  - exists v'. auto.
Qed.
Lemma run_first vf c m ths w : inv vf (mkC A W (Run c :: m) ths w) -> exists w', ex c w = Ok w' /\ inv vf (mkC A W m ths w').
Proof.
  intros [ND SF AP (v & HV & H)]. cbn in *. destruct SF as (S1 & S2).
  apply to_front in H; [|intros d Hd; apply indep_sym, S1; [left; auto|auto]].
  destruct (first_ok vf c _ w (ex_intro _ v (conj HV H))) as (w' & E & R). exists w'. split; auto. constructor; cbn; auto.
Qed.
Lemma step_inv vf a b : inv vf a -> step a b -> inv vf b.
Proof.
  intros HI HS. destruct HS as [c m ths w w' E|p q m ths w HN|p m ths w HIn|m a p c q b w w' E].
  - destruct (run_first vf c m ths w HI) as (w2 & E2 & H). congruence.
  - destruct HI as [ND SF AP (v & HV & H)]. cbn in *. destruct SF as (S0 & S1 & S2). constructor; cbn.
    + rewrite map_app. cbn. apply NoDup_app_comm || idtac. rewrite <- (app_nil_r (map fst ths)) in ND |- *. rewrite <- app_assoc. cbn. apply NoDup_Add with (a := p) (l := map fst ths ++ []); [apply Add_app|split; auto; rewrite app_nil_r; auto].
    + auto.
    + apply apart_app. split; auto. split; [cbn; split; auto; intros ? ? ? []|]. cbn. rewrite app_nil_r. apply indeps_sym. auto.
    + exists v. split; auto. unfold pending in *. rewrite flat_map_app. cbn. rewrite app_nil_r, <- app_assoc. auto.
  - destruct HI as [ND SF AP (v & HV & H)]. cbn [c_main c_ths c_w safe eager] in *. destruct SF as (S0 & S1).
    apply in_split in HIn as (a & b & ->). rewrite drop_mid in * by auto. constructor; cbn [c_main c_ths c_w].
    + rewrite map_app in *. cbn in ND. apply NoDup_remove_1 in ND. auto.
    + exact S1.
    + apply apart_app in AP as (A1 & (A2 & A3) & A4). apply apart_app. auto.
    + exists v. split; auto. unfold pending in *. rewrite flat_map_app in *. cbn in H. auto.
  - destruct (thread_first vf m a p c q b w HI) as (w2 & E2 & H). congruence.
Qed.
Lemma steps_inv vf a b : inv vf a -> steps a b -> inv vf b.
Proof. intros HI HS. induction HS as [c|x y z HS IH H]; [exact HI|]. exact (step_inv vf y z (IH HI) H). Qed.
Lemma inv_not_bad vf a : inv vf a -> ~ bad a.
Proof.
  intros HI HB. destruct HB as [c m ths w HN|p q m ths w HN|p m ths w HN|ths w HN|m a p c q b w HN].
  - destruct (run_first vf c m ths w HI) as (w' & E & _). apply (HN w'); auto.
  - destruct HI as [_ (S0 & _) _ _]. auto.
  - destruct HI as [_ (S0 & _) _ _]. auto.
  - destruct HI as [_ S0 _ _]. cbn in S0. congruence.
  - destruct (thread_first vf m a p c q b w HI) as (w' & E & _). apply (HN w'); auto.
Qed.
Lemma inv_progress vf a : inv vf a -> (c_main A W a = [] /\ c_ths A W a = []) \/ exists b, step a b.
Proof.
  intros HI. destruct a as [m ths w]. cbn. destruct m as [|[c|p q|p] m].
  - left. split; auto. apply (i_safe vf _ HI).
  - right. destruct (run_first vf c m ths w HI) as (w' & E & _). eexists. apply S_run. exact E.
  - right. eexists. apply S_fork. exact (proj1 (i_safe vf _ HI)).
  - right. destruct HI as [ND (S0 & S1) AP HR]. cbn in *. pose proof S0 as S0'. apply in_map_iff in S0 as ((p' & q) & E & HIn). cbn in E. subst p'.
    destruct q as [|c q]; [eexists; apply S_join; exact HIn|].
    apply in_split in HIn as (a & b & ->). destruct (thread_first vf (Join p :: m) a p c q b w) as (w' & E & _); [constructor; cbn; auto|]. eexists. apply S_thread. exact E.
Qed.
Lemma inv_done vf ths w : inv vf (mkC A W [] ths w) -> ths = [] -> exists v, Vw w v /\ eqv vf v.
Proof. intros [_ _ _ (v & HV & vf' & R & HE)] ->. cbn in R. injection R as <-. eauto. Qed.
(** every schedule is finite *)
Definition weight (s : stmt A) : nat := match s with Fork _ q => 1 + length q | _ => 1 end.
Definition size (cf : conf A W) : nat := list_sum (map weight (c_main A W cf)) + length (pending (c_ths A W cf)).
Lemma pending_drop p ths : length (pending (drop A p ths)) <= length (pending ths).
Proof. induction ths as [|t ths IH]; cbn; auto. unfold drop, pending in *. destruct (negb (fst t =? p)); cbn; rewrite ?app_length; lia. Qed.
Lemma step_size a b : step a b -> size b < size a.
Proof.
  intros [c m ths w w' E|p q m ths w HN|p m ths w HIn|m x p c q y w w' E]; unfold size, pending; cbn; rewrite ?flat_map_app, ?app_length; cbn; rewrite ?app_nil_r, ?app_length; cbn; rewrite ?app_length; try lia.
  pose proof (pending_drop p ths). unfold pending in *. lia.
Qed.
End Generic.
