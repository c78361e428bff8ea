(** Dump and Load of whole containers; consequences of the refinement; concrete histories. *)
From Coq Require Import List Arith Lia Bool String.
From Verif Require Import Base DuoVec DuoSpec DuoFacts Names.
Import ListNotations.

Section Io.
Variable V : Type.
Variable dflt : V.
Notation world := (world V). Notation aworld := (aworld V).
Notation good := (good V).
Notation conts := (conts V). Notation afs := (afs V).
Variable name : nat -> string.
Hypothesis name_inj : forall i j, name i = name j -> i = j.

Lemma dump_step : forall w a c i n rl y o, good w a -> nth_error (conts a) c = Some (Some y) -> nth_error y i = Some o ->
  exists w', op_dump V dflt c i n rl w = Ok w' /\
    good w' (mkA V (upd (conts a) c (Some (upd y i (if rl then None else Some (slot_or V dflt o))))) (fset V n (Some (slot_or V dflt o)) (afs a))).
Proof.
  intros w a c i n rl y o HG HC HI. pose proof (step_ok V dflt (ODump V c i n rl) w a HG) as H. cbn [step astep] in H. unfold acont in H. rewrite HC in H. cbn [bind] in H. rewrite HI in H.
  destruct (op_dump V dflt c i n rl w) as [w'| |]; simpl in H; try contradiction. exists w'. destruct H as [_ H]. auto.
Qed.
Lemma dump_const_step : forall w a c i n y v, good w a -> nth_error (conts a) c = Some (Some y) -> nth_error y i = Some (Some v) ->
  exists w', op_dump_const V c i n w = Ok w' /\ good w' (mkA V (conts a) (fset V n (Some v) (afs a))).
Proof.
  intros w a c i n y v HG HC HI. pose proof (step_ok V dflt (ODumpConst V c i n) w a HG) as H. cbn [step astep] in H. unfold acont in H. rewrite HC in H. cbn [bind] in H. rewrite HI in H.
  destruct (op_dump_const V c i n w) as [w'| |]; simpl in H; try contradiction. exists w'. destruct H as [_ H]. auto.
Qed.
Lemma load_step : forall w a c i n y, good w a -> nth_error (conts a) c = Some (Some y) -> i < List.length y ->
  exists w', op_load V dflt c i n w = Ok (match afs a n with Some _ => true | None => false end, w') /\
    good w' (mkA V (upd (conts a) c (Some (upd y i (Some (slot_or V dflt (afs a n)))))) (afs a)).
Proof.
  intros w a c i n y HG HC HI. pose proof (step_ok V dflt (OLoad V c i n) w a HG) as H. cbn [step astep] in H. unfold acont in H. rewrite HC in H. cbn [bind] in H.
  destruct (Nat.ltb_spec i (List.length y)); [|lia]. destruct (afs a n) as [v|]; destruct (op_load V dflt c i n w) as [[b w']| |]; simpl in H; try contradiction;
    exists w'; destruct H as [E H]; injection E as ->; auto.
Qed.
Lemma size_ok : forall w a c y, good w a -> nth_error (conts a) c = Some (Some y) -> op_size V c w = Ok (List.length y).
Proof.
  intros w a c y HG HC. pose proof (step_ok V dflt (OSize V c) w a HG) as H. cbn [step astep] in H. unfold acont in H. rewrite HC in H. cbn [bind] in H.
  destruct (op_size V c w); simpl in H; try contradiction. destruct H as [H _]. injection H as ->. auto.
Qed.
(** what the files hold after the first [j] dumps *)
Definition files_after (y : vals V) (j : nat) (f f' : string -> option V) : Prop :=
  (forall i o, i < j -> nth_error y i = Some o -> f' (name i) = Some (slot_or V dflt o)) /\ (forall n, (forall i, i < j -> n <> name i) -> f' n = f n).
Definition after_dump (rl : bool) (y : vals V) (j : nat) : vals V := map (fun o => if rl then None else Some (slot_or V dflt o)) (firstn j y) ++ skipn j y.
Lemma after_upd : forall rl y j o, nth_error y j = Some o -> upd (after_dump rl y j) j (if rl then None else Some (slot_or V dflt o)) = after_dump rl y (S j).
Proof.
  intros rl y j o H. unfold after_dump. set (g := fun o : option V => if rl then None else Some (slot_or V dflt o)). change (if rl then None else Some (slot_or V dflt o)) with (g o). clearbody g.
  revert j H. induction y as [|x y IH]; intros j H; destruct j; simpl in *; try discriminate; [congruence|]. f_equal. apply IH. auto.
Qed.
Lemma after_nth : forall rl y j, nth_error (after_dump rl y j) j = nth_error y j.
Proof.
  intros rl y j. unfold after_dump. destruct (Nat.lt_ge_cases j (List.length y)) as [L|L].
  - rewrite nth_error_app2 by (rewrite map_length, firstn_length; lia). rewrite map_length, firstn_length. replace (j - Nat.min j (List.length y)) with 0 by lia.
    rewrite <- (firstn_skipn j y) at 2. rewrite nth_error_app2 by (rewrite firstn_length; lia). rewrite firstn_length. f_equal. lia.
  - rewrite (proj2 (nth_error_None _ _)); [rewrite (proj2 (nth_error_None _ _)); auto|]. rewrite app_length, map_length, firstn_length, skipn_length. lia.
Qed.
Lemma dump_all_ok : forall w a c y rl, good w a -> nth_error (conts a) c = Some (Some y) ->
  exists w' f', op_dump_all V dflt c name rl w = Ok w' /\ files_after y (List.length y) (afs a) f' /\
    good w' (mkA V (upd (conts a) c (Some (after_dump rl y (List.length y)))) f').
Proof.
  intros w a c y rl HG HC. unfold op_dump_all. rewrite (size_ok w a c y HG HC). cbn [bind].
  assert (EC : c < List.length (conts a)) by (apply nth_error_Some; congruence).
  destruct (for_loop_inv _ (fun j w' => exists f', files_after y j (afs a) f' /\ good w' (mkA V (upd (conts a) c (Some (after_dump rl y j))) f'))
    (fun i => op_dump V dflt c i (name i) rl) (List.length y) 0 w) as [w' [W1 W2]].
  - exists (afs a). split; [split; [intros; lia|auto]|]. unfold after_dump. simpl. exact (eq_ind_r (good w) HG (aset_self V a c y HC)).
  - intros i w' Hi [f' [F1 F2]]. destruct (nth_error y i) as [o|] eqn:EI; [|apply nth_error_None in EI; lia].
    destruct (dump_step w' _ c i (name i) rl (after_dump rl y i) o F2) as [w'' [D1 D2]].
    + simpl. apply nth_error_upd_same. auto.
    + rewrite after_nth. auto.
    + exists w''. split; auto. simpl in D2. rewrite upd_upd, (after_upd rl y i o EI) in D2. exists (fset V (name i) (Some (slot_or V dflt o)) f'). split; auto.
      destruct F1 as [P1 P2]. split.
      * intros k o' Hk Ho. unfold fset. destruct (String.eqb_spec (name k) (name i)) as [E|E].
        -- apply name_inj in E. subst k. congruence.
        -- apply P1; auto. destruct (Nat.eq_dec k i); [subst; congruence|lia].
      * intros n Hn. unfold fset. destruct (String.eqb_spec n (name i)) as [E|E]; [exfalso; apply (Hn i); auto|]. apply P2. intros k Hk. apply Hn. lia.
  - simpl in W2. destruct W2 as [f' [F1 F2]]. exists w', f'. auto.
Qed.
Lemma dump_const_ok : forall w a c vs, good w a -> nth_error (conts a) c = Some (Some (map Some vs)) ->
  exists w' f', op_dump_all_const V c name w = Ok w' /\ files_after (map Some vs) (List.length vs) (afs a) f' /\ good w' (mkA V (conts a) f').
Proof.
  intros w a c vs HG HC. unfold op_dump_all_const. rewrite (size_ok w a c _ HG HC). cbn [bind]. rewrite map_length.
  destruct (for_loop_inv _ (fun j w' => exists f', files_after (map Some vs) j (afs a) f' /\ good w' (mkA V (conts a) f'))
    (fun i => op_dump_const V c i (name i)) (List.length vs) 0 w) as [w' [W1 W2]].
  - exists (afs a). split; [split; [intros; lia|auto]|]. destruct a. exact HG.
  - intros i w' Hi [f' [F1 F2]]. destruct (nth_error vs i) as [v|] eqn:EI; [|apply nth_error_None in EI; lia].
    assert (EM : nth_error (map Some vs) i = Some (Some v)) by (rewrite nth_error_map, EI; auto).
    destruct (dump_const_step w' _ c i (name i) (map Some vs) v F2 HC EM) as [w'' [D1 D2]]. exists w''. split; auto. simpl in D2. exists (fset V (name i) (Some v) f'). split; auto.
    destruct F1 as [P1 P2]. split.
    + intros k o' Hk Ho. unfold fset. destruct (String.eqb_spec (name k) (name i)) as [E|E].
      * apply name_inj in E. subst k. rewrite EM in Ho. injection Ho as <-. auto.
      * apply P1; auto. destruct (Nat.eq_dec k i); [subst; congruence|lia].
    + intros n Hn. unfold fset. destruct (String.eqb_spec n (name i)) as [E|E]; [exfalso; apply (Hn i); auto|]. apply P2. intros k Hk. apply Hn. lia.
  - simpl in W2. destruct W2 as [f' [F1 F2]]. exists w', f'. auto.
Qed.
(** Load: slots before the first missing file are read, the slot of the missing file becomes a default element *)
Fixpoint first_missing (f : string -> option V) (i n : nat) : option nat :=
  match n with O => None | S m => match f (name i) with None => Some i | Some _ => first_missing f (S i) m end end.
Definition loaded (f : string -> option V) (y : vals V) (j : nat) : vals V := map f (map name (seq 0 j)) ++ skipn j y.
Lemma loaded_upd : forall f y j v, j < List.length y -> f (name j) = Some v -> upd (loaded f y j) j (Some v) = loaded f y (S j).
Proof.
  intros f y j v L H. unfold loaded. rewrite seq_S, !map_app. simpl. rewrite H.
  assert (SK : exists x, skipn j y = x :: skipn (S j) y).
  { clear H. revert j L. induction y as [|x y IH]; intros j L; simpl in L; [lia|]. destruct j; [simpl; eauto|]. simpl. apply IH. lia. }
  destruct SK as [x SK]. rewrite SK. rewrite <- app_assoc. simpl.
  pose proof (upd_split _ (map f (map name (seq 0 j))) (skipn (S j) y) x (Some v)) as U. rewrite !map_length, seq_length in U. exact U.
Qed.
Lemma loaded_len : forall f y j, j <= List.length y -> List.length (loaded f y j) = List.length y.
Proof. intros. unfold loaded. rewrite app_length, !map_length, seq_length, skipn_length. lia. Qed.
Lemma load_all_ok : forall w a c y, good w a -> nth_error (conts a) c = Some (Some y) -> exists w' y',
  op_load_all V dflt c name w = Ok (match first_missing (afs a) 0 (List.length y) with None => true | Some _ => false end, w') /\
  good w' (mkA V (upd (conts a) c (Some y')) (afs a)) /\
  y' = match first_missing (afs a) 0 (List.length y) with
       | None => map (afs a) (map name (seq 0 (List.length y)))
       | Some k => upd (loaded (afs a) y k) k (Some dflt)
       end.
Proof.
  intros w a c y HG HC. unfold op_load_all. rewrite (size_ok w a c y HG HC). cbn [bind].
  assert (EC : c < List.length (conts a)) by (apply nth_error_Some; congruence).
  set (body := fun i (x : bool * world) => if fst x then op_load V dflt c i (name i) (snd x) else Ok x).
  assert (STOP : forall n i w', for_loop i n body (false, w') = Ok (false, w')) by (induction n; intros; simpl; auto).
  assert (GEN : forall n i w', i + n = List.length y -> good w' (mkA V (upd (conts a) c (Some (loaded (afs a) y i))) (afs a)) -> exists w'' y',
    for_loop i n body (true, w') = Ok (match first_missing (afs a) i n with None => true | Some _ => false end, w'') /\
    good w'' (mkA V (upd (conts a) c (Some y')) (afs a)) /\
    y' = match first_missing (afs a) i n with None => loaded (afs a) y (List.length y) | Some k => upd (loaded (afs a) y k) k (Some dflt) end).
  { induction n as [|n IH]; intros i w' HL HG'.
    - simpl. exists w', (loaded (afs a) y i). split; auto. split; auto. f_equal. lia.
    - cbn [for_loop first_missing]. unfold body at 1. cbn [fst snd].
      destruct (load_step w' _ c i (name i) (loaded (afs a) y i) HG') as [w'' [L1 L2]]; [simpl; apply nth_error_upd_same; auto|rewrite loaded_len; lia|].
      rewrite L1. simpl in L2. rewrite upd_upd in L2. cbn [DuoSpec.afs]. destruct (afs a (name i)) as [v|] eqn:EF; cbn [bind].
      + apply IH; [lia|]. simpl in L2. rewrite (loaded_upd _ _ _ v) in L2 by (auto; lia). exact L2.
      + rewrite STOP. exists w'', (upd (loaded (afs a) y i) i (Some dflt)). split; auto. }
  destruct (GEN (List.length y) 0 w) as [w'' [y' [A1 [A2 A3]]]]; auto.
  - unfold loaded. simpl. exact (eq_ind_r (good w) HG (aset_self V a c y HC)).
  - exists w'', y'. split; auto. split; auto. rewrite A3. destruct (first_missing (afs a) 0 (List.length y)); auto. unfold loaded. rewrite skipn_all, app_nil_r. auto.
Qed.
Lemma first_missing_none : forall f n i, (forall k, i <= k < i + n -> f (name k) <> None) -> first_missing f i n = None.
Proof. induction n; intros i H; simpl; auto. destruct (f (name i)) eqn:E; [apply IHn; intros; apply H; lia|]. exfalso. apply (H i); [lia|auto]. Qed.
(** Dump(c); Load(d): d gets the tensors of c *)
Lemma dump_load_ok : forall w a c d ys z rl, good w a -> c <> d -> nth_error (conts a) c = Some (Some (map Some ys)) -> nth_error (conts a) d = Some (Some z) ->
  List.length z = List.length ys ->
  exists w1 w2 a2, op_dump_all V dflt c name rl w = Ok w1 /\ op_load_all V dflt d name w1 = Ok (true, w2) /\ good w2 a2 /\
    nth_error (conts a2) d = Some (Some (map Some ys)) /\
    nth_error (conts a2) c = Some (Some (if rl then repeat None (List.length ys) else map Some ys)) /\
    (forall e, e <> c -> e <> d -> nth_error (conts a2) e = nth_error (conts a) e) /\
    (forall n, (forall i, i < List.length ys -> n <> name i) -> afs a2 n = afs a n).
Proof.
  intros w a c d ys z rl HG NE HC HD HL. destruct (dump_all_ok w a c _ rl HG HC) as [w1 [f [D1 [[D2 D2'] D3]]]]. rewrite map_length in *.
  assert (HD1 : nth_error (conts (mkA V (upd (conts a) c (Some (after_dump rl (map Some ys) (List.length ys)))) f)) d = Some (Some z)) by (simpl; rewrite nth_error_upd_other; auto).
  destruct (load_all_ok w1 _ d z D3 HD1) as [w2 [z' [L1 [L2 L3]]]]. cbn [DuoSpec.afs DuoSpec.conts] in *.
  assert (FI : forall k, k < List.length ys -> exists v, nth_error ys k = Some v /\ f (name k) = Some v).
  { intros k Hk. destruct (nth_error ys k) as [v|] eqn:E; [|apply nth_error_None in E; lia]. exists v. split; auto. apply (D2 k (Some v) Hk). rewrite nth_error_map, E. auto. }
  assert (FM : first_missing f 0 (List.length z) = None).
  { apply first_missing_none. intros k Hk. destruct (FI k) as [v [_ E]]; [lia|congruence]. }
  rewrite FM in *. exists w1, w2, (mkA V (upd (upd (conts a) c (Some (after_dump rl (map Some ys) (List.length ys)))) d (Some z')) f). split; auto. split; auto. split; auto.
  assert (EC : c < List.length (conts a)) by (apply nth_error_Some; congruence). assert (ED : d < List.length (conts a)) by (apply nth_error_Some; congruence).
  cbn [DuoSpec.afs DuoSpec.conts]. split; [|split; [|split]].
  - rewrite nth_error_upd_same by (rewrite upd_length; auto). f_equal. f_equal. rewrite L3. apply nth_error_ext. intros i. rewrite !nth_error_map.
    destruct (Nat.lt_ge_cases i (List.length ys)) as [L|L].
    + destruct (FI i L) as [v [V1 V2]]. rewrite V1. rewrite HL. rewrite (nth_error_nth' (seq 0 (List.length ys)) 0) by (rewrite seq_length; auto). rewrite seq_nth by auto. simpl. rewrite V2. auto.
    + rewrite (proj2 (nth_error_None (seq 0 (List.length z)) i)) by (rewrite seq_length; lia). rewrite (proj2 (nth_error_None ys i)) by lia. auto.
  - rewrite nth_error_upd_other, nth_error_upd_same by auto. f_equal. f_equal. unfold after_dump. rewrite <- (map_length Some ys) at 1 2. rewrite firstn_all, skipn_all, app_nil_r, map_map. simpl.
    clear. destruct rl; [|apply map_ext; auto]. induction ys; simpl; auto. f_equal. auto.
  - intros e E1 E2. rewrite !nth_error_upd_other; auto.
  - intros n Hn. apply D2'. auto.
Qed.
End Io.

Section Cons.
Variable V : Type.
Variable dflt : V.
(** no history reaches a double delete, a use after delete or a leak *)
Lemma C16_lemma : forall l, match runs V dflt l (w0 V), aruns V dflt l (a0 V) with
  | Ok (o, w), Ok (o', a) => o = o' /\ exact_ownership V w /\ shows V w a
  | Ub, Ub => True
  | _, _ => False
  end.
Proof.
  intros l. pose proof (runs_ok V dflt l _ _ (good0 V)) as H. pose proof (fun l a => (eq_refl : aruns V dflt l a = aruns V dflt l a)) as _.
  assert (NA : forall l a, aruns V dflt l a <> Abort).
  { clear. induction l as [|o l IH]; intros a; simpl; [discriminate|].
    assert (NS : astep V dflt o a <> Abort).
    { assert (AC : forall c, acont V a c <> Abort) by (intros c; unfold acont; destruct (nth_error (conts V a) c) as [[s|]|]; discriminate).
      destruct o; cbn [astep];
      repeat match goal with
      | |- Ok _ <> Abort => discriminate
      | |- Ub <> Abort => discriminate
      | |- bind (acont V a ?x) _ <> Abort => let A := fresh in pose proof (AC x) as A; destruct (acont V a x); cbn [bind]; [|discriminate|congruence]
      | |- context [match ?x with _ => _ end] => destruct x
      end. }
    destruct (astep V dflt o a) as [[x a1]| |]; cbn [bind]; try discriminate; [|congruence].
    specialize (IH a1). destruct (aruns V dflt l a1) as [[xs a2]| |]; cbn [bind]; try discriminate. congruence. }
  specialize (NA l (a0 V)). destruct (runs V dflt l (w0 V)) as [[o w]| |]; destruct (aruns V dflt l (a0 V)) as [[o' a]| |]; simpl in H; try contradiction; try congruence; auto.
Qed.
Lemma reached : forall l o o' w a, runs V dflt l (w0 V) = Ok (o, w) -> aruns V dflt l (a0 V) = Ok (o', a) -> good V w a.
Proof. intros l o o' w a H H'. pose proof (C16_lemma l) as C. rewrite H, H' in C. destruct C as [_ C]. exact C. Qed.
(** once all containers are destroyed nothing is left *)
Lemma no_leak : forall l o w, runs V dflt l (w0 V) = Ok (o, w) -> Forall (fun c => c = None) (objs V w) -> forall a, ~ live V w a.
Proof.
  intros l o w H HN a HL. pose proof (C16_lemma l) as C. rewrite H in C. destruct (aruns V dflt l (a0 V)) as [[o' aw]| |]; try contradiction.
  destruct C as [_ [[_ C] _]]. apply C in HL. unfold owned in HL. apply in_flat_map in HL. destruct HL as [c [C1 C2]]. rewrite Forall_forall in HN. rewrite (HN c C1) in C2. contradiction.
Qed.
(** an operation that names only other containers does not change what container [d] shows *)
Definition writes (o : op V) : list nat :=
  match o with
  | OAssign _ c _ | ODestroy _ c | OPut _ c _ _ | OTouch _ c _ | OReplace _ c _ _ | OSwap _ c _ _ | OAlloc _ c _ | ODealloc _ c _ | OClear _ c
  | OLoad _ c _ _ | ODump _ c _ _ _ | OMove _ c => [c]
  | OMoveAssign _ c d => [c; d]
  | _ => []
  end.
Lemma astep_other : forall o a x a' d, astep V dflt o a = Ok (x, a') -> ~ In d (writes o) -> d < List.length (conts V a) -> nth_error (conts V a') d = nth_error (conts V a) d.
Proof.
  intros o a x a' d H HN HD.
  assert (AD : forall s b, nth_error (conts V (aadd V s b)) d = nth_error (conts V b ++ [Some s]) d) by reflexivity.
  destruct o; cbn [astep writes] in *;
    repeat match goal with
    | H : bind ?e _ = Ok _ |- _ => destruct e as [? | |] eqn:?; cbn [bind] in H; try discriminate
    | H : context [match ?e with _ => _ end] |- _ => destruct e eqn:?; try discriminate
    end;
    injection H as <- <-; unfold aset, aadd; cbn [DuoSpec.conts];
    rewrite ?nth_error_upd_other by (simpl in HN; intuition congruence); rewrite ?nth_error_app1 by (rewrite ?upd_length; auto); rewrite ?nth_error_upd_other by (simpl in HN; intuition congruence); auto.
Qed.
Lemma C17_lemma : forall l w a d s, good V w a -> nth_error (conts V a) d = Some (Some s) -> Forall (fun o => ~ In d (writes o)) l ->
  forall o w', runs V dflt l w = Ok (o, w') -> exists a', good V w' a' /\ nth_error (conts V a') d = Some (Some s).
Proof.
  induction l as [|o l IH]; intros w a d s HG HD HF out w' H; simpl in H.
  - injection H as <- <-. exists a. auto.
  - pose proof (Forall_inv HF) as F1. pose proof (Forall_inv_tail HF) as F2. cbv beta in F1. pose proof (step_ok V dflt o w a HG) as S. destruct (step V dflt o w) as [[x w1]| |] eqn:ES; cbn [bind] in H; try discriminate.
    destruct (astep V dflt o a) as [[x' a1]| |] eqn:EA; simpl in S; try contradiction. destruct S as [_ S].
    destruct (runs V dflt l w1) as [[xs w2]| |] eqn:ER; cbn [bind] in H; try discriminate. injection H as <- <-.
    apply (IH w1 a1 d s S) with (o := xs); auto. rewrite (astep_other _ _ _ _ d EA); auto. apply nth_error_Some. congruence.
Qed.
(** copy construction and assignment *)
Lemma copy_equal : forall w a c s, good V w a -> nth_error (conts V a) c = Some (Some s) ->
  exists w' a', step V dflt (OCopy V c) w = Ok (OutUnit V, w') /\ good V w' a' /\
    nth_error (conts V a') (List.length (conts V a)) = Some (Some s) /\ forall d, d < List.length (conts V a) -> nth_error (conts V a') d = nth_error (conts V a) d.
Proof.
  intros w a c s HG HC. pose proof (step_ok V dflt (OCopy V c) w a HG) as S. cbn [astep] in S. unfold acont in S. rewrite HC in S. cbn [bind] in S.
  destruct (step V dflt (OCopy V c) w) as [[x w']| |]; simpl in S; try contradiction. destruct S as [-> S]. exists w', (aadd V s a). split; auto. split; auto. unfold aadd. simpl.
  split; [rewrite nth_error_app2, Nat.sub_diag by lia; auto|]. intros. apply nth_error_app1. auto.
Qed.
Lemma assign_equal : forall w a c d s t, good V w a -> nth_error (conts V a) c = Some (Some s) -> nth_error (conts V a) d = Some (Some t) -> c <> d ->
  exists w' a', step V dflt (OAssign V c d) w = Ok (OutUnit V, w') /\ good V w' a' /\
    nth_error (conts V a') c = Some (Some t) /\ forall e, e <> c -> nth_error (conts V a') e = nth_error (conts V a) e.
Proof.
  intros w a c d s t HG HC HD NE. pose proof (step_ok V dflt (OAssign V c d) w a HG) as S. cbn [astep] in S. unfold acont in S. rewrite HC, HD in S. cbn [bind] in S.
  destruct (step V dflt (OAssign V c d) w) as [[x w']| |]; simpl in S; try contradiction. destruct S as [-> S]. destruct (Nat.eqb_spec c d); [contradiction|].
  eexists w', _. split; auto. split; [exact S|]. unfold aset. simpl. split; [apply nth_error_upd_same; apply nth_error_Some; congruence|]. intros. apply nth_error_upd_other. auto.
Qed.
Lemma self_assign : forall w a c s, good V w a -> nth_error (conts V a) c = Some (Some s) ->
  exists w' a', step V dflt (OAssign V c c) w = Ok (OutUnit V, w') /\ good V w' a' /\ nth_error (conts V a') c = Some (Some (repeat None (List.length s))).
Proof.
  intros w a c s HG HC. assert (LC : c < List.length (conts V a)) by (apply nth_error_Some; rewrite HC; discriminate). pose proof (step_ok V dflt (OAssign V c c) w a HG) as S. cbn [astep] in S. unfold acont in S. rewrite HC in S. cbn [bind] in S. rewrite Nat.eqb_refl in S.
  destruct (step V dflt (OAssign V c c) w) as [[x w']| |]; simpl in S; try contradiction. destruct S as [-> S].
  eexists w', _. split; auto. split; [exact S|]. unfold aset. simpl. apply nth_error_upd_same. exact LC.
Qed.
End Cons.

(** concrete history: two containers, copies, a move, a self assignment, files *)
Local Open Scope string_scope.
Definition ex_ops : list (op nat) :=
  [ONew nat 3; OPut nat 0 0 7; OPut nat 0 2 9; OCopy nat 0; OPut nat 1 0 8; OGet nat 0 0; OAssign nat 0 1; OGet nat 0 0; ODump nat 1 1 "f" true;
   OMove nat 1; OSize nat 1; OLoad nat 2 1 "f"; OGet nat 2 1; OLoad nat 2 0 "g"; OGet nat 2 0; OAssign nat 0 0; OEmpty nat 0; ODestroy nat 0; ODestroy nat 2; ODestroy nat 1].
Definition outs_of {A B} (r : res (A * B)) : option A := match r with Ok (a, _) => Some a | _ => None end.
Lemma ex_ops_run : outs_of (runs nat 0 ex_ops (w0 nat)) = Some
  [OutUnit nat; OutUnit nat; OutUnit nat; OutUnit nat; OutUnit nat; OutV nat 7; OutUnit nat; OutV nat 8; OutUnit nat;
   OutUnit nat; OutN nat 0; OutB nat true; OutV nat 0; OutB nat false; OutV nat 0; OutUnit nat; OutB nat true; OutUnit nat; OutUnit nat; OutUnit nat].
Proof. vm_compute. reflexivity. Qed.
